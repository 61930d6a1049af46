(** Refined_connection and Hanging_vertex_matcher *)
From Coq Require Import Reals ZArith List Arith Lia Bool Lra.
From Verif Require Import Outcome ListUtil Loop RSum Math_Model Tensor_Model Tensor_Spec Tensor_Proofs Connection_Model Connection_Spec Connection_Proofs.
Import ListNotations.
Local Open Scope nat_scope.

Definition all_str (k : nat) : list (list bool) := flat_map (fun a => map (fun b => [a; b]) bools) bools.
Lemma in_all_str a b k : In [a; b] (all_str k).
Proof. apply in_flat_map. exists a. split; [apply in_bools|]. apply in_map_iff. exists b. split; [reflexivity|apply in_bools]. Qed.

Definition glued_cf_b n d (rev : bool) xc xf := if rev then glued_b n 4 d xf xc else glued_b n 4 d xc xf.
Lemma glued_cf_b_ok n d rev xc xf : glued_cf_b n d rev xc xf = true -> glued_cf n d rev xc xf.
Proof. destruct rev; apply glued_b_ok. Qed.

Definition merge_ok_b n d (rev : bool) str (m : Z * nat * Z) : bool :=
  let '(vc, e, vf) := m in
  let c := Z.to_nat vc in let f := Z.to_nat vf in
  (Z.of_nat c =? vc)%Z && (Z.of_nat f =? vf)%Z && (e <? fine_count (firstn (n - 1) str))
  && existsb (Nat.eqb c) (face_verts n (i_dim d rev) (face_sign d rev))
  && existsb (Nat.eqb f) (face_verts n (i_dim d (negb rev)) (face_sign d (negb rev)))
  && glued_cf_b n d rev (fun k => 4 * coords 2 n c k)
       (face_coord (i_dim d (negb rev)) (fine_corner (firstn (n - 1) str) e (in_face (i_dim d (negb rev)) (coords 2 n f)))).

Definition mortar_ok_b n d (rev : bool) str (r : refined) (m : nat) : bool :=
  match nth_error (mortars r) m with
  | Some (Some j) => match nth_error (fine_cons r) j with
    | Some e => (e <? fine_count (firstn (n - 1) str))
        && glued_cf_b n d rev (face_coord (i_dim d rev) (fine_centre (firstn (n - 1) (coarse_str r)) m))
                              (face_coord (i_dim d (negb rev)) (fine_centre (firstn (n - 1) str) e))
    | None => false end
  | _ => false end.

Definition mortar_inj_b (r : refined) : bool :=
  forallb (fun m => forallb (fun m' =>
    match nth_error (mortars r) m, nth_error (mortars r) m' with
    | Some (Some j), Some (Some j') => if j =? j' then m =? m' else true
    | _, _ => true end) (seq 0 4)) (seq 0 4).

Definition check_refined (n : nat) (d : direction) (rev : bool) (str : list bool) : bool :=
  let n_fine := fine_count (firstn (n - 1) str) in
  match refined_connection n d rev str n_fine with
  | Ok r =>
      forallb (merge_ok_b n d rev str) (merges r)
      && nodup_b (map (fun m => Z.to_nat (fst (fst m))) (merges r)) && (length (merges r) =? 2 ^ (n - 1))
      && (length (fine_cons r) =? n_fine) && nodup_b (fine_cons r)
      && (length (mortars r) =? 4)
      && forallb (mortar_ok_b n d rev str r) (seq 0 n_fine)
      && mortar_inj_b r
      && forallb (fun m => match nth_error (mortars r) m with Some None => true | _ => false end) (seq n_fine (4 - n_fine))
  | _ => false end.

Definition check_refined_dir (n : nat) (d : direction) : bool := forallb (fun rev => forallb (check_refined n d rev) (all_str 0)) bools.
Lemma check_refined_all : forall n d, 1 <= n <= 3 -> allowed n d -> check_refined_dir n d = true.
Proof. apply all_allowed. vm_compute. reflexivity. Qed.

Lemma to_nat_eqb v : (Z.of_nat (Z.to_nat v) =? v)%Z = true -> v = Z.of_nat (Z.to_nat v).
Proof. intros H. apply Z.eqb_eq in H. now symmetry. Qed.

Lemma refined_ok n d rev a b : 1 <= n <= 3 -> allowed n d ->
  let str := firstn (n - 1) [a; b] in
  let dc := i_dim d rev in let df := i_dim d (negb rev) in
  exists r, refined_connection n d rev [a; b] (fine_count str) = Ok r
    /\ length (merges r) = 2 ^ (n - 1) /\ NoDup (map (fun m => fst (fst m)) (merges r))
    /\ (forall vc e vf, In (vc, e, vf) (merges r) -> exists c f, vc = Z.of_nat c /\ vf = Z.of_nat f
          /\ on_face n dc (face_sign d rev) c /\ on_face n df (face_sign d (negb rev)) f /\ e < fine_count str
          /\ glued_cf n d rev (fun k => 4 * coords 2 n c k) (face_coord df (fine_corner str e (in_face df (coords 2 n f)))))
    /\ length (fine_cons r) = fine_count str /\ NoDup (fine_cons r) /\ length (mortars r) = 4
    /\ (forall m, m < fine_count str -> exists j e, nth_error (mortars r) m = Some (Some j) /\ nth_error (fine_cons r) j = Some e
          /\ e < fine_count str
          /\ glued_cf n d rev (face_coord dc (fine_centre (firstn (n - 1) (coarse_str r)) m)) (face_coord df (fine_centre str e)))
    /\ (forall m m' j, nth_error (mortars r) m = Some (Some j) -> nth_error (mortars r) m' = Some (Some j) -> m = m')
    /\ (forall m, fine_count str <= m < 4 -> nth_error (mortars r) m = Some None).
Proof.
  intros Hn Hd str dc df.
  assert (H := check_refined_all n d Hn Hd). unfold check_refined_dir in H. rewrite forallb_forall in H.
  specialize (H rev (in_bools rev)). rewrite forallb_forall in H. specialize (H [a; b] (in_all_str a b 0)).
  unfold check_refined in H. fold str in H.
  destruct (refined_connection n d rev [a; b] (fine_count str)) as [r| | |]; try discriminate.
  repeat (apply andb_true_iff in H; let K := fresh "K" in destruct H as [H K]).
  exists r. split; [reflexivity|]. split; [now apply Nat.eqb_eq in K5|].
  rewrite forallb_forall in H.
  split.
  { apply nodup_b_ok in K6. rewrite <- map_map in K6. now apply NoDup_map_inv in K6. }
  split.
  { intros vc e vf Hi. specialize (H _ Hi). unfold merge_ok_b in H. cbv zeta in H.
    repeat (apply andb_true_iff in H; let K := fresh "L" in destruct H as [H K]).
    exists (Z.to_nat vc), (Z.to_nat vf). split; [now apply to_nat_eqb|]. split; [now apply to_nat_eqb|].
    split; [now apply face_verts_spec, existsb_In|]. split; [now apply face_verts_spec, existsb_In|].
    split; [now apply Nat.ltb_lt in L2|]. now apply glued_cf_b_ok. }
  split; [now apply Nat.eqb_eq in K4|]. split; [now apply nodup_b_ok|].
  assert (L4 : length (mortars r) = 4) by now apply Nat.eqb_eq in K2.
  split; [assumption|]. split.
  { intros m Hm. rewrite forallb_forall in K1. specialize (K1 m ltac:(apply in_seq; lia)). unfold mortar_ok_b in K1.
    destruct (nth_error (mortars r) m) as [[j|]|]; try discriminate.
    destruct (nth_error (fine_cons r) j) as [e|] eqn:Ej; try discriminate.
    apply andb_true_iff in K1. destruct K1 as [K1 K1'].
    exists j, e. split; [reflexivity|]. split; [assumption|]. split; [now apply Nat.ltb_lt in K1|]. now apply glued_cf_b_ok. }
  split.
  { intros m m' j E E'.
    assert (m < 4) by (rewrite <- L4; apply nth_error_Some; congruence).
    assert (m' < 4) by (rewrite <- L4; apply nth_error_Some; congruence).
    unfold mortar_inj_b in K0. rewrite forallb_forall in K0. specialize (K0 m ltac:(apply in_seq; lia)).
    rewrite forallb_forall in K0. specialize (K0 m' ltac:(apply in_seq; lia)). rewrite E, E', Nat.eqb_refl in K0.
    now apply Nat.eqb_eq in K0. }
  intros m Hm. rewrite forallb_forall in K. specialize (K m ltac:(apply in_seq; lia)).
  destruct (nth_error (mortars r) m) as [[|]|]; congruence.
Qed.

Lemma refined_throws n d rev a b n_given : 1 <= n <= 3 -> 0 < n_given -> n_given <> fine_count (firstn (n - 1) [a; b]) ->
  refined_connection n d rev [a; b] n_given = Throw.
Proof.
  intros Hn Hg Hne. unfold refined_connection. destruct (Nat.eqb_spec n_given 0); [lia|].
  assert (E : exists l, coarse_stretch d [a; b] = Ok l).
  { unfold coarse_stretch, bget. destruct (transpose d); cbn; eauto. }
  destruct E as [l E]. rewrite E. cbn [bind].
  assert (V : n = 1 \/ n = 2 \/ n = 3) by lia.
  destruct V as [->|[->| ->]], a, b; cbn [firstn Nat.sub] in Hne; unfold fine_count in Hne; cbn in Hne; cbn;
    destruct n_given as [|[|[|[|[|k]]]]]; cbn; try reflexivity; try lia.
Qed.

(** * Hanging_vertex_matcher *)

Definition on_face_b (n a : nat) (s : bool) (v : nat) : bool := (v <? 2 ^ n) && (coords 2 n v a =? Nat.b2n s).
Definition ok_and {A} (o : outcome A) (P : A -> bool) : bool := match o with Ok x => P x | _ => false end.

Definition check_hanging (n id : nat) (isp : bool) (str2 : list bool) : bool :=
  let str := firstn (n - 1) str2 in
  let nv := 2 ^ (n - 1) in
  forallb (fun j => ok_and (stretched_ind n j str2) (fun e =>
      (e <? fine_count str) && on_face_b n id isp (hanging_ind n id isp j)
      && forallb (fun k => fine_corner str e (in_face id (coords 2 n (hanging_ind n id isp j))) k =? 4 * coords 2 (n - 1) j k) (seq 0 (n - 1)))) (seq 0 nv)
  && forallb (fun e => forallb (fun w => ok_and (interp_ind n str2 e w) (fun k =>
      (k <? 3 ^ (n - 1))
      && forallb (fun c => 2 * digit 3 (n - 1) c k =? fine_corner str e (in_face id (coords 2 n (hanging_ind n id isp w))) c) (seq 0 (n - 1))))
      (seq 0 nv)) (seq 0 (fine_count str))
  && nodup_b (map (hanging_ind n id isp) (seq 0 nv))
  && forallb (fun v => negb (on_face_b n id isp v) || existsb (Nat.eqb v) (map (hanging_ind n id isp) (seq 0 nv))) (seq 0 (2 ^ n)).

Lemma check_hanging_all n id isp a b : 2 <= n <= 3 -> id < n -> check_hanging n id isp [a; b] = true.
Proof.
  intros Hn Hid. assert (V : n = 2 \/ n = 3) by lia.
  destruct V as [->| ->].
  - destruct id as [|[|id]]; [| |lia]; destruct isp, a, b; vm_compute; reflexivity.
  - destruct id as [|[|[|id]]]; [| | |lia]; destruct isp, a, b; vm_compute; reflexivity.
Qed.

Lemma interp_mat_weight a w : a < 3 -> w < 2 -> entry interp_mat a w = corner_weight (2 * a) w.
Proof.
  intros Ha Hw. unfold corner_weight, interp_mat, entry.
  destruct a as [|[|[|a]]]; [| | |lia]; destruct w as [|[|w]]; try lia; cbn; lra.
Qed.

Lemma collect_list {A} (f : nat -> outcome A) (n : nat) : forall acc, (forall k, k < n -> exists x, f k = Ok x) ->
  exists l, ofold (fun k acc => let! x := f k in Ok (acc ++ [x])) (seq 0 n) acc = Ok (acc ++ l) /\ length l = n
    /\ forall k d, k < n -> f k = Ok (nth k l d).
Proof.
  induction n as [|n IH]; intros acc H.
  - exists []. cbn. rewrite app_nil_r. repeat split; intros; lia.
  - rewrite seq_S, ofold_app. destruct (IH acc) as (l & E & L & N); [intros; apply H; lia|].
    rewrite E. cbn [bind ofold plus]. destruct (H n) as [x Hx]; [lia|]. rewrite Hx. cbn [bind].
    exists (l ++ [x]). rewrite app_assoc. split; [reflexivity|]. split; [rewrite app_length; cbn; lia|].
    intros k d Hk. destruct (lt_dec k n).
    + rewrite app_nth1 by lia. now apply N.
    + replace k with n by lia. rewrite app_nth2, L, Nat.sub_diag by lia. exact Hx.
Qed.

(** writing entries with distinct keys *)
Lemma ofold_upd {X} (key : X -> nat * nat) (g : X -> outcome R) (l : list X) (s : nat -> nat -> R) :
  NoDup (map key l) -> (forall x, In x l -> exists r, g x = Ok r) ->
  exists s', ofold (fun x s => let! r := g x in
      Ok (fun e v => if ((e =? fst (key x)) && (v =? snd (key x)))%bool then r else s e v)) l s = Ok s'
    /\ (forall x, In x l -> g x = Ok (s' (fst (key x)) (snd (key x))))
    /\ (forall e v, ~ In (e, v) (map key l) -> s' e v = s e v).
Proof.
  revert s. induction l as [|x l IH]; intros s Hnd Hg.
  - exists s. cbn. repeat split; intros; tauto.
  - cbn [map] in Hnd. inversion Hnd as [|? ? Hni Hnd']; subst. cbn [ofold].
    destruct (Hg x) as [r Hr]; [now left|]. rewrite Hr. cbn [bind].
    destruct (IH (fun e v => if ((e =? fst (key x)) && (v =? snd (key x)))%bool then r else s e v) Hnd') as (s' & E & H1 & H2);
      [intros; apply Hg; now right|].
    exists s'. split; [exact E|]. split.
    + intros y [<-|Hy]; [|now apply H1]. rewrite H2, !Nat.eqb_refl; [exact Hr|]. now rewrite <- surjective_pairing.
    + intros e v Hi. rewrite H2 by (intros Hj; apply Hi; now right).
      destruct (Nat.eqb_spec e (fst (key x))), (Nat.eqb_spec v (snd (key x))); cbn [andb]; try reflexivity.
      subst. exfalso. apply Hi. left. now rewrite <- surjective_pairing.
Qed.

Lemma digit_lt b n k i : 0 < b -> digit b n k i < b.
Proof. intros H. unfold digit. apply Nat.mod_upper_bound. lia. Qed.

Lemma match_ok n id isp a b vals C : 2 <= n <= 3 -> id < n ->
  let str := firstn (n - 1) [a; b] in
  (forall e v i, e < fine_count str -> on_face n id isp v -> i < 2 ^ (n - 1) ->
     (forall k, k < n - 1 -> fine_corner str e (in_face id (coords 2 n v)) k = 4 * coords 2 (n - 1) i k) -> C i = vals e v) ->
  exists vals', matcher_match n id isp [a; b] (fine_count str) vals = Ok vals'
    /\ (forall e v, e < fine_count str -> on_face n id isp v ->
          vals' e v = rsum (2 ^ (n - 1)) (fun i => rprod (n - 1) (fun k =>
            corner_weight (fine_corner str e (in_face id (coords 2 n v)) k) (coords 2 (n - 1) i k)) * C i)%R)
    /\ (forall e v, ~ (e < fine_count str /\ on_face n id isp v) -> vals' e v = vals e v).
Proof.
  intros Hn Hid str HC.
  assert (H := check_hanging_all n id isp a b Hn Hid). unfold check_hanging in H. fold str in H.
  repeat (apply andb_true_iff in H; let K := fresh "K" in destruct H as [H K]).
  rewrite forallb_forall in H, K, K1.
  assert (Hof : forall v, on_face_b n id isp v = true <-> on_face n id isp v).
  { intros v. unfold on_face_b, on_face. rewrite andb_true_iff, Nat.ltb_lt, Nat.eqb_eq. reflexivity. }
  assert (Ev : 2 ^ n / 2 = 2 ^ (n - 1)).
  { replace n with (S (n - 1)) at 1 by lia. rewrite Nat.pow_succ_r', Nat.mul_comm. now apply Nat.div_mul. }
  unfold matcher_match. rewrite Ev.
  (* gathering *)
  assert (G : forall j, j < 2 ^ (n - 1) ->
     (let! e := stretched_ind n j [a; b] in if e <? fine_count str then Ok (vals e (hanging_ind n id isp j)) else Ub) = Ok (C j)).
  { intros j Hj. specialize (H j ltac:(apply in_seq; lia)). unfold ok_and in H.
    destruct (stretched_ind n j [a; b]) as [e| | |]; try discriminate. cbn [bind].
    apply andb_true_iff in H. destruct H as [H L]. apply andb_true_iff in H. destruct H as [H L0]. rewrite H.
    apply Hof in L0. f_equal. symmetry. apply HC; [now apply Nat.ltb_lt|assumption|assumption|].
    intros k Hk. rewrite forallb_forall in L. specialize (L k ltac:(apply in_seq; lia)). now apply Nat.eqb_eq. }
  destruct (collect_list (fun j => let! e := stretched_ind n j [a; b] in
      if e <? fine_count str then Ok (vals e (hanging_ind n id isp j)) else Ub) (2 ^ (n - 1)) []) as (l & E & L & N).
  { intros k Hk. eauto. }
  assert (E' : ofold (fun i_vert acc => let! e := stretched_ind n i_vert [a; b] in
      if e <? fine_count str then Ok (acc ++ [vals e (hanging_ind n id isp i_vert)]) else Ub) (seq 0 (2 ^ (n - 1))) [] = Ok l).
  { etransitivity; [|exact E]. apply ofold_ext. intros x s _. destruct (stretched_ind n x [a; b]); cbn [bind]; [|reflexivity..].
    destruct (_ <? _); reflexivity. }
  rewrite E'. cbn [bind].
  (* interpolation *)
  destruct (hypercube_main interp_mat (n - 1) (fun i => nth i l 0%R) n) as (out & Eo & Ho); cbn [rows cols interp_mat]; try lia.
  cbn [rows cols interp_mat] in Eo, Ho. rewrite Eo. cbn [bind fst snd].
  (* writing *)
  rewrite (ofold_nest (fun i_elem i_vert (vals : nat -> nat -> R) =>
     let! k := interp_ind n [a; b] i_elem i_vert in
     if k <? 3 ^ (n - 1) then
      Ok (fun e v => if ((e =? i_elem) && (v =? hanging_ind n id isp i_vert))%bool then out k else vals e v)
     else Ub)).
  set (key := fun p : nat * nat => (fst p, hanging_ind n id isp (snd p))).
  set (g := fun p : nat * nat => let! k := interp_ind n [a; b] (fst p) (snd p) in if k <? 3 ^ (n - 1) then Ok (out k) else Ub).
  destruct (ofold_upd key g (list_prod (seq 0 (fine_count str)) (seq 0 (2 ^ (n - 1)))) vals) as (vals' & Ew & W1 & W2).
  { apply nodup_b_ok in K0. apply NoDup_map_inj; [|apply NoDup_list_prod; apply seq_NoDup].
    intros [e1 w1] [e2 w2] I1 I2 Ek. apply in_prod_iff in I1, I2. cbn in Ek. inversion Ek; subst.
    f_equal. destruct I1 as [_ I1], I2 as [_ I2]. apply in_seq in I1, I2.
    rewrite (NoDup_nth _ (hanging_ind n id isp 0)) in K0. rewrite map_length, seq_length in K0.
    apply (K0 w1 w2); [lia|lia|]. rewrite !map_nth, !seq_nth by lia. exact H2. }
  { intros [e w] I. apply in_prod_iff in I. destruct I as [I1 I2].
    specialize (K1 e I1). rewrite forallb_forall in K1. specialize (K1 w I2). unfold g, ok_and in *. cbn [fst snd].
    destruct (interp_ind n [a; b] e w) as [k| | |]; try discriminate. cbn [bind].
    apply andb_true_iff in K1. destruct K1 as [K1 _]. rewrite K1. eauto. }
  exists vals'. split; [|split].
  - etransitivity; [|exact Ew]. apply ofold_ext. intros [e w] s _. unfold g, key. cbn [fst snd].
    destruct (interp_ind n [a; b] e w); cbn [bind]; [|reflexivity..]. destruct (_ <? _); reflexivity.
  - intros e v He Hv. assert (Hv' := Hv). apply Hof in Hv'. destruct Hv as [Hv0 Hv1].
    specialize (K v ltac:(apply in_seq; lia)). rewrite Hv' in K. cbn [negb orb] in K. apply existsb_In, in_map_iff in K.
    destruct K as (w & <- & Hw).
    specialize (W1 (e, w)). cbn [key fst snd] in W1.
    assert (I : In (e, w) (list_prod (seq 0 (fine_count str)) (seq 0 (2 ^ (n - 1))))) by (apply in_prod_iff; split; [apply in_seq; lia|assumption]).
    specialize (W1 I). unfold g in W1. cbn [fst snd] in W1.
    specialize (K1 e ltac:(apply in_seq; lia)). rewrite forallb_forall in K1. specialize (K1 w Hw). unfold ok_and in K1.
    destruct (interp_ind n [a; b] e w) as [k| | |]; try discriminate. cbn [bind] in W1.
    apply andb_true_iff in K1. destruct K1 as [Hk K1]. rewrite Hk in W1. assert (W : out k = vals' e (hanging_ind n id isp w)) by congruence. rewrite <- W.
    rewrite Ho by now apply Nat.ltb_lt. apply rsum_ext. intros i Hi. f_equal.
    + unfold kronecker_power. cbn [rows cols interp_mat]. apply rprod_ext. intros c Hc.
      rewrite interp_mat_weight by (apply digit_lt; lia). unfold coords at 2. f_equal.
      rewrite forallb_forall in K1. specialize (K1 c ltac:(apply in_seq; lia)). now apply Nat.eqb_eq.
    + specialize (N i 0%R Hi). cbv beta in N. rewrite (G i Hi) in N. now inversion N.
  - intros e v Hno. apply W2. intros I. apply Hno. apply in_map_iff in I. destruct I as ([e' w] & Ek & I).
    cbn in Ek. inversion Ek; subst. apply in_prod_iff in I. destruct I as [I1 I2]. split; [apply in_seq in I1; lia|].
    specialize (H w I2). unfold ok_and in H. destruct (stretched_ind n w [a; b]); try discriminate.
    apply andb_true_iff in H. destruct H as [H _]. apply andb_true_iff in H. destruct H as [_ H]. now apply Hof.
Qed.
