(** Face_permutation *)
From Coq Require Import ZArith List Arith Lia Bool.
From Verif Require Import Outcome ListUtil Loop Math_Model Tensor_Model Tensor_Spec Tensor_Proofs Row_Proofs Connection_Model Connection_Spec Connection_Proofs.
Import ListNotations.

(** [l'] is [l] read through the index map [p] *)
Definition moved {A} (p : nat -> nat) (l l' : list A) : Prop :=
  length l' = length l /\ (forall k, k < length l -> p k < length l) /\ forall k, k < length l -> nth_error l' k = nth_error l (p k).

Lemma moved_ext {A} p q (l l' : list A) : (forall k, k < length l -> p k = q k) -> moved p l l' -> moved q l l'.
Proof.
  intros E (H1 & H2 & H3). split; [assumption|]. split; intros k Hk; rewrite <- (E k Hk); auto.
Qed.
Lemma moved_comp {A} p q (l l' l'' : list A) : moved p l l' -> moved q l' l'' -> moved (fun k => p (q k)) l l''.
Proof.
  intros (H1 & H2 & H3) (K1 & K2 & K3). split; [congruence|]. split; intros k Hk.
  - apply H2. rewrite <- H1. apply K2. now rewrite H1.
  - rewrite K3 by now rewrite H1. apply H3. rewrite <- H1. apply K2. now rewrite H1.
Qed.
Lemma moved_unique {A} p (l l' l'' : list A) : moved p l l' -> moved p l l'' -> l' = l''.
Proof.
  intros (H1 & H2 & H3) (K1 & K2 & K3). apply nth_error_ext'. intros k.
  destruct (lt_dec k (length l)) as [Hk|Hk]; [now rewrite H3, K3|].
  rewrite (proj2 (nth_error_None l' k)), (proj2 (nth_error_None l'' k)); [reflexivity|lia|lia].
Qed.
Lemma moved_id {A} (l : list A) : moved (fun k => k) l l.
Proof. repeat split; auto. Qed.
Lemma moved_back {A} p (l l' : list A) : (forall k, k < length l -> p (p k) = k) -> moved p l l' -> moved p l' l.
Proof.
  intros E (H1 & H2 & H3). split; [congruence|]. rewrite H1. split; [assumption|].
  intros k Hk. rewrite H3 by now apply H2. now rewrite E.
Qed.

Lemma read_all {A} (l : list A) p : forall n acc, (forall k, k < n -> p k < length l) ->
  exists r, ofold (fun k acc => let! x := aget l (p k) in Ok (acc ++ [x])) (seq 0 n) acc = Ok (acc ++ r)
    /\ length r = n /\ forall k, k < n -> nth_error r k = nth_error l (p k).
Proof.
  induction n as [|n IH]; intros acc H.
  - exists []. cbn. rewrite app_nil_r. repeat split; intros; lia.
  - rewrite seq_S, ofold_app. destruct (IH acc) as (r & E & L & N); [intros; apply H; lia|].
    rewrite E. cbn [bind]. cbn [ofold plus].
    assert (Hn := H n (Nat.lt_succ_diag_r n)). apply nth_error_Some in Hn.
    destruct (nth_error l (p n)) as [x|] eqn:Ex; [|congruence].
    unfold aget. rewrite Ex. cbn [bind of_option_ub]. exists (r ++ [x]). rewrite app_assoc. split; [reflexivity|].
    split; [rewrite app_length; cbn; lia|].
    intros k Hk. destruct (lt_dec k n) as [Hk'|Hk'].
    + rewrite nth_error_app1 by lia. now apply N.
    + replace k with n by lia. rewrite nth_error_app2, L, Nat.sub_diag by lia. cbn. now rewrite Ex.
Qed.

Definition region off len (pi : nat -> nat) k := if (off <=? k) && (k <? off + len) then off + pi (k - off) else k.

Lemma permute_region_moved {A} off len pi (l : list A) : off + len <= length l -> (forall k, k < len -> pi k < len) ->
  exists l', permute_region off len pi l = Ok l' /\ moved (region off len pi) l l'.
Proof.
  intros Hl Hpi. unfold permute_region. destruct (Nat.leb_spec (off + len) (length l)); [|lia].
  assert (Hb : forall k, k < length l -> region off len pi k < length l).
  { intros k Hk. unfold region. destruct (Nat.leb_spec off k), (Nat.ltb_spec k (off + len)); cbn [andb]; try lia.
    specialize (Hpi (k - off)). lia. }
  destruct (read_all l (region off len pi) (length l) [] Hb) as (r & E & L & N).
  exists r. cbn [app] in E. split; [exact E|]. repeat split; auto.
Qed.

(** apply [pi] within each block of [nf], for [n_var] blocks *)
Definition lift nf n_var (pi : nat -> nat) k := if k <? n_var * nf then k / nf * nf + pi (k mod nf) else k.

Lemma lift_at nf n_var pi v f : v < n_var -> f < nf -> lift nf n_var pi (v * nf + f) = v * nf + pi f.
Proof.
  intros Hv Hf. unfold lift. destruct (Nat.ltb_spec (v * nf + f) (n_var * nf)) as [H|H]; [|nia].
  assert (E : (v * nf + f) / nf = v) by (rewrite Nat.add_comm, Nat.div_add, Nat.div_small by lia; reflexivity). rewrite E.
  replace ((v * nf + f) mod nf) with f; [reflexivity|].
  rewrite Nat.add_comm, Nat.mod_add, Nat.mod_small by lia. reflexivity.
Qed.

Lemma split_index nf n_var k : k < n_var * nf -> exists v f, v < n_var /\ f < nf /\ k = v * nf + f.
Proof.
  intros H. assert (nf <> 0) by (intros ->; lia). exists (k / nf), (k mod nf).
  split; [apply Nat.div_lt_upper_bound; lia|]. split; [now apply Nat.mod_upper_bound|].
  rewrite (Nat.div_mod k nf) at 1 by assumption. lia.
Qed.

Lemma lift_invol nf n_var pi : (forall f, f < nf -> pi f < nf /\ pi (pi f) = f) ->
  forall k, lift nf n_var pi (lift nf n_var pi k) = k.
Proof.
  intros H k. destruct (lt_dec k (n_var * nf)) as [Hk|Hk].
  - destruct (split_index _ _ _ Hk) as (v & f & Hv & Hf & ->). destruct (H f Hf) as [H1 H2].
    rewrite (lift_at nf n_var pi v f Hv Hf), (lift_at nf n_var pi v (pi f) Hv H1). now rewrite H2.
  - unfold lift. destruct (Nat.ltb_spec k (n_var * nf)); [lia|]. destruct (Nat.ltb_spec k (n_var * nf)); [lia|reflexivity].
Qed.

Lemma permute_blocks {A} nf pi : (forall f, f < nf -> pi f < nf) -> forall n_var (l : list A), n_var * nf <= length l ->
  exists l', ofold (fun v t => permute_region (v * nf) nf pi t) (seq 0 n_var) l = Ok l' /\ moved (lift nf n_var pi) l l'.
Proof.
  intros Hpi. induction n_var as [|n IH]; intros l Hl.
  - exists l. split; [reflexivity|]. eapply moved_ext; [|apply moved_id]. reflexivity.
  - rewrite seq_S, ofold_app. destruct (IH l) as (l1 & E1 & M1); [lia|]. rewrite E1. cbn [bind plus ofold].
    destruct (permute_region_moved (n * nf) nf pi l1) as (l2 & E2 & M2); [destruct M1 as [-> _]; lia|assumption|].
    rewrite E2. cbn [bind]. exists l2. split; [reflexivity|].
    eapply moved_ext; [|exact (moved_comp _ _ _ _ _ M1 M2)].
    intros k Hk. cbv beta. unfold region.
    destruct (lt_dec k (n * nf)) as [H|H].
    + destruct (Nat.leb_spec (n * nf) k); [lia|]. cbn [andb]. destruct (split_index _ _ _ H) as (v & f & Hv & Hf & ->).
      rewrite !lift_at by lia. reflexivity.
    + destruct (Nat.leb_spec (n * nf) k); [|lia]. cbn [andb]. destruct (Nat.ltb_spec k (n * nf + nf)) as [H1|H1].
      * unfold lift at 1. destruct (Nat.ltb_spec (n * nf + pi (k - n * nf)) (n * nf)); [lia|].
        replace k with (n * nf + (k - n * nf)) at 2 by lia. rewrite lift_at; lia.
      * unfold lift. destruct (Nat.ltb_spec k (n * nf)); [lia|]. destruct (Nat.ltb_spec k (S n * nf)); [lia|reflexivity].
Qed.

Lemma ij rs i j : i < rs -> (i + rs * j) mod rs = i /\ (i + rs * j) / rs = j.
Proof.
  intros H. rewrite (Nat.mul_comm rs j). split.
  - rewrite Nat.mod_add by lia. now apply Nat.mod_small.
  - rewrite Nat.div_add, Nat.div_small by lia. reflexivity.
Qed.
Lemma ij_ex rs k : k < rs * rs -> exists i j, i < rs /\ j < rs /\ k = i + rs * j.
Proof.
  intros H. assert (rs <> 0) by (intros ->; lia). exists (k mod rs), (k / rs).
  split; [now apply Nat.mod_upper_bound|]. split; [now apply Nat.div_lt_upper_bound|].
  rewrite (Nat.div_mod k rs) at 1 by assumption. lia.
Qed.
Lemma pi_transpose_at rs i j : i < rs -> pi_transpose rs (i + rs * j) = j + rs * i.
Proof. intros H. unfold pi_transpose. destruct (ij rs i j H) as [-> ->]. reflexivity. Qed.
Lemma pi_colwise_at rs i j : i < rs -> pi_colwise rs (i + rs * j) = (rs - 1 - i) + rs * j.
Proof. intros H. unfold pi_colwise. destruct (ij rs i j H) as [-> ->]. reflexivity. Qed.
Lemma pi_rowwise_at rs i j : i < rs -> pi_rowwise rs rs (i + rs * j) = i + rs * (rs - 1 - j).
Proof. intros H. unfold pi_rowwise. destruct (ij rs i j H) as [-> ->]. reflexivity. Qed.

Lemma ij_lt rs i j : i < rs -> j < rs -> i + rs * j < rs * rs.
Proof. intros. nia. Qed.

Definition good rs (pi : nat -> nat) := forall f, f < rs * rs -> pi f < rs * rs /\ pi (pi f) = f.
Lemma good_transpose rs : good rs (pi_transpose rs).
Proof.
  intros f Hf. destruct (ij_ex rs f Hf) as (i & j & Hi & Hj & ->). rewrite !pi_transpose_at by assumption.
  split; [now apply ij_lt|reflexivity].
Qed.
Lemma good_colwise rs : good rs (pi_colwise rs).
Proof.
  intros f Hf. destruct (ij_ex rs f Hf) as (i & j & Hi & Hj & ->). rewrite !pi_colwise_at by lia.
  split; [apply ij_lt; lia|lia].
Qed.
Lemma good_rowwise rs : good rs (pi_rowwise rs rs).
Proof.
  intros f Hf. destruct (ij_ex rs f Hf) as (i & j & Hi & Hj & ->). rewrite !pi_rowwise_at by lia.
  split; [apply ij_lt; lia|]. replace (rs - 1 - (rs - 1 - j)) with j by lia. reflexivity.
Qed.

(** the index map of [perm_transpose] and [perm_flip] on one face *)
Definition face_transpose (n rs : nat) (d : direction) (f : nat) : nat := if transpose d then (if n =? 3 then pi_transpose rs f else f) else f.
Definition face_flip (n rs : nat) (d : direction) (f : nat) : nat :=
  if flip_tangential d then
    if n =? 3 then
      if xorb (Z.of_nat (dim0 d) >? 3 - Z.of_nat (dim0 d) - Z.of_nat (dim1 d))%Z (transpose d) then pi_colwise rs f else pi_rowwise rs rs f
    else if n =? 2 then rs - 1 - f else f
  else f.

Lemma invol_id m f : f < m -> f < m /\ f = f.
Proof. auto. Qed.

Lemma face_transpose_good n rs d : 1 <= n <= 3 -> forall f, f < rs ^ (n - 1) ->
  face_transpose n rs d f < rs ^ (n - 1) /\ face_transpose n rs d (face_transpose n rs d f) = f.
Proof.
  intros Hn f Hf. unfold face_transpose. destruct (transpose d); [|auto]. destruct (Nat.eqb_spec n 3) as [->|]; [|auto].
  cbn [Nat.sub Nat.pow] in *. rewrite Nat.mul_1_r in *. now apply good_transpose.
Qed.
Lemma face_flip_good n rs d : 1 <= n <= 3 -> forall f, f < rs ^ (n - 1) ->
  face_flip n rs d f < rs ^ (n - 1) /\ face_flip n rs d (face_flip n rs d f) = f.
Proof.
  intros Hn f Hf. unfold face_flip. destruct (flip_tangential d); [|auto]. destruct (Nat.eqb_spec n 3) as [->|].
  - cbn [Nat.sub Nat.pow] in *. rewrite Nat.mul_1_r in *. destruct xorb; [now apply good_colwise|now apply good_rowwise].
  - destruct (Nat.eqb_spec n 2) as [->|]; [|auto]. cbn [Nat.sub Nat.pow] in *. lia.
Qed.

Lemma lift_id nf n_var k : nf <> 0 -> lift nf n_var (fun f => f) k = k.
Proof.
  intros H. unfold lift. destruct (k <? n_var * nf); [|reflexivity]. rewrite (Nat.div_mod k nf) at 3 by assumption. lia.
Qed.

Lemma perm_transpose_moved {A} n rs n_var d (l : list A) : 1 <= n <= 3 -> 1 <= rs -> n_var * rs ^ (n - 1) <= length l ->
  exists l', perm_transpose n rs n_var d l = Ok l' /\ moved (lift (rs ^ (n - 1)) n_var (face_transpose n rs d)) l l'.
Proof.
  intros Hn Hrs Hl. pose proof (pow_pos' rs (n - 1) ltac:(lia)) as Hp.
  unfold perm_transpose, face_transpose. destruct (transpose d).
  - destruct (Nat.eqb_spec n 3) as [->|].
    + cbn [Nat.sub Nat.pow] in *. rewrite Nat.mul_1_r in *.
      apply (permute_blocks (rs * rs) (pi_transpose rs)); [|assumption]. intros f Hf. now apply good_transpose.
    + exists l. split; [reflexivity|]. eapply moved_ext; [|apply moved_id]. intros k Hk. symmetry. apply lift_id. lia.
  - exists l. split; [reflexivity|]. eapply moved_ext; [|apply moved_id]. intros k Hk. symmetry. apply lift_id. lia.
Qed.

Lemma lift_ext nf n_var p q k : (forall f, f < nf -> p f = q f) -> nf <> 0 -> lift nf n_var p k = lift nf n_var q k.
Proof. intros H Hn. unfold lift. rewrite H; [reflexivity|]. now apply Nat.mod_upper_bound. Qed.

Lemma perm_flip_moved {A} n rs n_var d (l : list A) : 1 <= n <= 3 -> 1 <= rs -> n_var * rs ^ (n - 1) <= length l ->
  exists l', perm_flip n rs n_var d l = Ok l' /\ moved (lift (rs ^ (n - 1)) n_var (face_flip n rs d)) l l'.
Proof.
  intros Hn Hrs Hl. pose proof (pow_pos' rs (n - 1) ltac:(lia)) as Hp.
  assert (Hid : exists l', Ok l = Ok l' /\ moved (lift (rs ^ (n - 1)) n_var (fun f => f)) l l').
  { exists l. split; [reflexivity|]. eapply moved_ext; [|apply moved_id]. intros k Hk. symmetry. apply lift_id. lia. }
  unfold perm_flip, face_flip. destruct (flip_tangential d); [|assumption].
  destruct (Nat.eqb_spec n 3) as [->|].
  - cbv zeta. cbn [Nat.sub Nat.pow] in *. rewrite Nat.mul_1_r in *.
    destruct xorb.
    + apply (permute_blocks (rs * rs) (pi_colwise rs)); [|assumption]. intros f Hf. now apply good_colwise.
    + apply (permute_blocks (rs * rs) (pi_rowwise rs rs)); [|assumption]. intros f Hf. now apply good_rowwise.
  - destruct (Nat.eqb_spec n 2) as [->|]; [|assumption].
    cbn [Nat.sub] in *. rewrite Nat.pow_1_r in *. rewrite Nat.div_mul by lia.
    destruct (permute_region_moved 0 (rs * n_var) (pi_colwise rs) l) as (l' & E & M).
    + lia.
    + intros k Hk. destruct (split_index rs n_var k) as (v & f & Hv & Hf & ->); [lia|].
      rewrite Nat.add_comm, Nat.mul_comm, pi_colwise_at by assumption. nia.
    + exists l'. split; [exact E|]. eapply moved_ext; [|exact M].
      intros k Hk. unfold region. cbn [Nat.leb andb plus]. rewrite Nat.sub_0_r.
      destruct (Nat.ltb_spec k (rs * n_var)).
      * destruct (split_index rs n_var k) as (v & f & Hv & Hf & ->); [lia|]. rewrite lift_at by assumption.
        rewrite (Nat.add_comm _ f), (Nat.mul_comm v), pi_colwise_at by assumption. lia.
      * unfold lift. destruct (Nat.ltb_spec k (n_var * rs)); [lia|reflexivity].
Qed.

Lemma lift_beyond nf n_var pi k : n_var * nf <= k -> lift nf n_var pi k = k.
Proof. intros H. unfold lift. destruct (Nat.ltb_spec k (n_var * nf)); [lia|reflexivity]. Qed.

Lemma digit_21 rs i j : i < rs -> j < rs -> digit rs 2 1 (i + rs * j) = i.
Proof. intros Hi Hj. unfold digit. cbn [Nat.sub Nat.pow]. rewrite Nat.div_1_r. now apply ij. Qed.
Lemma digit_20 rs i j : i < rs -> j < rs -> digit rs 2 0 (i + rs * j) = j.
Proof.
  intros Hi Hj. unfold digit. cbn [Nat.sub Nat.pow]. rewrite Nat.mul_1_r. destruct (ij rs i j Hi) as [_ ->]. now apply Nat.mod_small.
Qed.

Definition face_glued (n rs : nat) (d : direction) (f0 f1 : nat) : Prop :=
  glued n (rs - 1) d (face_coord (dim0 d) (coords rs (n - 1) f0)) (face_coord (dim1 d) (coords rs (n - 1) f1)).

Lemma partner3 rs d f0 f1 : allowed 3 d -> f0 < rs * rs -> f1 < rs * rs ->
  face_glued 3 rs d f0 f1 <-> f1 = face_transpose 3 rs d (face_flip 3 rs d f0).
Proof.
  intros (Ha & Hb & Hc) H0 H1. unfold face_glued, glued, face_coord, coords.
  destruct (ij_ex rs f0 H0) as (i0 & j0 & Hi0 & Hj0 & ->). destruct (ij_ex rs f1 H1) as (i1 & j1 & Hi1 & Hj1 & ->).
  destruct d as [a b s t]. cbn [dim0 dim1 sign0 sign1] in *.
  assert (E : forall i j i' j', i < rs -> j < rs -> i' < rs -> j' < rs -> i' + rs * j' = i + rs * j <-> i' = i /\ j' = j).
  { intros i j i' j' Hi Hj Hi' Hj'. split; [|intros [-> ->]; reflexivity]. intros E.
    destruct (ij rs i j Hi) as [M D]. destruct (ij rs i' j' Hi') as [M' D']. rewrite E in M', D'. lia. }
  assert (F : forall P : nat -> Prop, (forall k, k < 3 -> P k) <-> P 0 /\ P 1 /\ P 2).
  { intros P. split; [intros H; repeat split; apply H; lia|]. intros (P0 & P1 & P2) k Hk.
    destruct k as [|[|[|k]]]; auto; lia. }
  rewrite F.
  assert (Va : a = 0 \/ a = 1 \/ a = 2) by lia. assert (Vb : b = 0 \/ b = 1 \/ b = 2) by lia. clear Ha Hb H0 H1 F.
  destruct Va as [->|[->| ->]], Vb as [->|[->| ->]], s, t; try (exfalso; lia || (destruct Hc; congruence));
    cbn [Nat.ltb Nat.leb Nat.sub Bool.eqb];
    rewrite ?digit_20, ?digit_21 by assumption;
    unfold face_transpose, face_flip, transpose, flip_tangential, flip_normal, face_sign;
    cbn [dim0 dim1 sign0 sign1 Nat.eqb Bool.eqb negb andb orb xorb Z.of_nat Z.sub Z.gtb Z.compare Pos.compare Pos.compare_cont Z.add Z.opp Z.pos_sub Pos.of_succ_nat Pos.succ Pos.sub Pos.pred_double Pos.sub_mask];
    cbn; rewrite ?pi_transpose_at, ?pi_colwise_at, ?pi_rowwise_at, ?pi_transpose_at by lia;
    rewrite E by lia; split; intros; repeat split; intros; try lia.
Qed.

Lemma partner2 rs d f0 f1 : allowed 2 d -> f0 < rs -> f1 < rs ->
  face_glued 2 rs d f0 f1 <-> f1 = face_transpose 2 rs d (face_flip 2 rs d f0).
Proof.
  intros (Ha & Hb & Hc) H0 H1. unfold face_glued, glued, face_coord, coords.
  destruct d as [a b s t]. cbn [dim0 dim1 sign0 sign1] in *.
  assert (D : forall f, f < rs -> digit rs 1 0 f = f).
  { intros f Hf. unfold digit. cbn [Nat.sub Nat.pow]. rewrite Nat.div_1_r. now apply Nat.mod_small. }
  assert (F : forall P : nat -> Prop, (forall k, k < 2 -> P k) <-> P 0 /\ P 1).
  { intros P. split; [intros H; split; apply H; lia|]. intros (P0 & P1) k Hk. destruct k as [|[|k]]; auto; lia. }
  rewrite F.
  assert (Va : a = 0 \/ a = 1) by lia. assert (Vb : b = 0 \/ b = 1) by lia. clear Ha Hb F.
  destruct Va as [->| ->], Vb as [->| ->], s, t; try (exfalso; lia || (destruct Hc; congruence));
    cbn [Nat.ltb Nat.leb Nat.sub Bool.eqb];
    rewrite ?D by assumption;
    unfold face_transpose, face_flip, transpose, flip_tangential, flip_normal, face_sign; cbn; lia.
Qed.

Lemma partner1 rs d f0 f1 : allowed 1 d -> f0 < 1 -> f1 < 1 ->
  face_glued 1 rs d f0 f1 <-> f1 = face_transpose 1 rs d (face_flip 1 rs d f0).
Proof.
  intros (Ha & Hb & Hc) H0 H1. assert (f1 = 0) by lia. assert (f0 = 0) by lia. subst.
  assert (E : face_transpose 1 rs d (face_flip 1 rs d 0) = 0).
  { unfold face_transpose, face_flip. cbn [Nat.eqb]. destruct (transpose d), (flip_tangential d); reflexivity. }
  rewrite E. split; [reflexivity|]. intros _. unfold face_glued, glued. split; intros; lia.
Qed.

Lemma partner n rs d f0 f1 : 1 <= n <= 3 -> allowed n d -> f0 < rs ^ (n - 1) -> f1 < rs ^ (n - 1) ->
  face_glued n rs d f0 f1 <-> f1 = face_transpose n rs d (face_flip n rs d f0).
Proof.
  intros Hn Hd H0 H1. assert (V : n = 1 \/ n = 2 \/ n = 3) by lia.
  destruct V as [->|[->| ->]]; cbn [Nat.sub Nat.pow] in H0, H1; rewrite ?Nat.mul_1_r in *.
  - now apply partner1.
  - now apply partner2.
  - now apply partner3.
Qed.

Lemma partner_exists n rs d f0 : 1 <= n <= 3 -> allowed n d -> f0 < rs ^ (n - 1) ->
  exists! f1, f1 < rs ^ (n - 1) /\ face_glued n rs d f0 f1.
Proof.
  intros Hn Hd H0. exists (face_transpose n rs d (face_flip n rs d f0)).
  assert (Hb : face_transpose n rs d (face_flip n rs d f0) < rs ^ (n - 1)).
  { apply face_transpose_good; [assumption|]. now apply face_flip_good. }
  split.
  - split; [assumption|]. now apply partner.
  - intros f1 [Hf1 G]. symmetry. now apply partner in G.
Qed.

Lemma match_faces_ok {A} n rs n_var d (l : list A) : 1 <= n <= 3 -> 1 <= rs -> allowed n d -> n_var * rs ^ (n - 1) <= length l ->
  exists l', match_faces n rs n_var d l = Ok l' /\ length l' = length l
    /\ (forall v f0 f1, v < n_var -> f0 < rs ^ (n - 1) -> f1 < rs ^ (n - 1) -> face_glued n rs d f0 f1 ->
          nth_error l' (v * rs ^ (n - 1) + f0) = nth_error l (v * rs ^ (n - 1) + f1))
    /\ (forall k, n_var * rs ^ (n - 1) <= k -> nth_error l' k = nth_error l k)
    /\ restore n rs n_var d l' = Ok l.
Proof.
  intros Hn Hrs Hd Hl.
  destruct (perm_transpose_moved n rs n_var d l Hn Hrs Hl) as (l1 & E1 & M1).
  destruct (perm_flip_moved n rs n_var d l1 Hn Hrs) as (l2 & E2 & M2); [destruct M1 as [-> _]; lia|].
  pose proof (moved_comp _ _ _ _ _ M1 M2) as M.
  exists l2. unfold match_faces. rewrite E1. cbn [bind]. split; [exact E2|].
  destruct M as (L & B & N). split; [assumption|]. split; [|split].
  - intros v f0 f1 Hv H0 H1 G. apply partner in G; [|assumption..].
    rewrite N by nia.
    assert (Hf := proj1 (face_flip_good n rs d Hn f0 H0)).
    rewrite (lift_at _ _ (face_flip n rs d)), lift_at by assumption. now rewrite G.
  - intros k Hk. destruct (lt_dec k (length l)) as [H|H].
    + rewrite N by assumption. rewrite (lift_beyond _ _ (face_flip n rs d)), lift_beyond by lia. reflexivity.
    + rewrite (proj2 (nth_error_None l2 k)), (proj2 (nth_error_None l k)); [reflexivity|lia|lia].
  - unfold restore.
    destruct (perm_flip_moved n rs n_var d l2 Hn Hrs) as (l3 & E3 & M3); [lia|].
    rewrite E3. cbn [bind].
    assert (X : l3 = l1).
    { eapply moved_unique; [exact M3|]. apply moved_back; [|exact M2]. intros k _. apply lift_invol.
      now apply face_flip_good. }
    subst l3.
    destruct (perm_transpose_moved n rs n_var d l1 Hn Hrs) as (l4 & E4 & M4); [destruct M1 as [-> _]; lia|].
    rewrite E4. f_equal. eapply moved_unique; [exact M4|]. apply moved_back; [|exact M1]. intros k _. apply lift_invol.
    now apply face_transpose_good.
Qed.
