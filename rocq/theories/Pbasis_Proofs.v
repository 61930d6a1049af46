From Coq Require Import Reals List Arith Lia Lra.
From Verif Require Import Outcome ListUtil Loop Pbasis_Model.
Import ListNotations.
Local Open Scope nat_scope.

(** [k] steps of the enumeration from [s] *)
Fixpoint walk (n r k : nat) (s : list nat) : outcome (list (list nat) * list nat) :=
  match k with
  | O => Ok ([], s)
  | S k => let! t := next_inds n r s in let! (l, e) := walk n r k t in Ok (s :: l, e)
  end.

Lemma walk_loop n r k : forall a acc s, 
  ofold (fun _ s => let! inds := next_inds n r (snd s) in Ok (fst s ++ [snd s], inds)) (seq a k) (acc, s)
  = let! (l, e) := walk n r k s in Ok (acc ++ l, e).
Proof.
  induction k as [|k IH]; intros a acc s; cbn [seq ofold walk].
  - cbn. now rewrite app_nil_r.
  - cbn [snd fst]. destruct (next_inds n r s) as [t| | |]; cbn [bind]; [|reflexivity..].
    rewrite IH. destruct (walk n r k t) as [[l e]| | |]; cbn [bind]; [|reflexivity..]. now rewrite <- app_assoc.
Qed.

Lemma walk_app n r k1 k2 s l1 e1 l2 e2 : walk n r k1 s = Ok (l1, e1) -> walk n r k2 e1 = Ok (l2, e2) -> walk n r (k1 + k2) s = Ok (l1 ++ l2, e2).
Proof.
  revert s l1. induction k1 as [|k1 IH]; intros s l1 H1 H2.
  - cbn in H1. inversion H1; subst. exact H2.
  - cbn [walk plus] in *. destruct (next_inds n r s) as [t| | |]; cbn [bind] in *; try discriminate.
    destruct (walk n r k1 t) as [[l e]| | |] eqn:E; cbn [bind] in *; try discriminate. inversion H1; subst.
    rewrite (IH t l E H2). reflexivity.
Qed.

(** ** One dimension *)
Lemma next1 r i : next_inds 1 r [i] = Ok [S i].
Proof. reflexivity. Qed.
Lemma walk1 r k : forall i, walk 1 r k [i] = Ok (map (fun x => [x]) (seq i k), [i + k]).
Proof.
  induction k as [|k IH]; intros i; cbn [walk seq map]; [now rewrite Nat.add_0_r|].
  rewrite next1. cbn [bind]. rewrite IH. cbn [bind]. now rewrite Nat.add_succ_r.
Qed.

(** ** Two dimensions *)
Lemma next2 r i j : next_inds 2 r [i; j] = Ok (if r <=? i + S j then [S i; 0] else [i; S j]).
Proof. unfold next_inds. cbn. rewrite Nat.add_0_r. destruct (r <=? i + S j); reflexivity. Qed.

Lemma walk2_row r i : forall k j, i + j + k = r -> k <> 0 -> walk 2 r k [i; j] = Ok (map (fun x => [i; x]) (seq j k), [S i; 0]).
Proof.
  induction k as [|k IH]; intros j Hr Hk; [lia|]. cbn [walk seq map]. rewrite next2. cbn [bind].
  destruct (Nat.leb_spec r (i + S j)).
  - assert (k = 0) by lia. subst k. reflexivity.
  - rewrite IH by lia. reflexivity.
Qed.

(** rows [i, i + m) of the triangle with sums below [r] *)
Definition rows2 (r i m : nat) : list (list nat) := flat_map (fun i => map (fun j => [i; j]) (seq 0 (r - i))) (seq i m).
Fixpoint count2 (r i m : nat) : nat := match m with O => 0 | S m => (r - i) + count2 r (S i) m end.
Lemma walk2 r : forall m i, i + m = r -> walk 2 r (count2 r i m) [i; 0] = Ok (rows2 r i m, [r; 0]).
Proof.
  induction m as [|m IH]; intros i Hr.
  - cbn. rewrite Nat.add_0_r in Hr. now subst.
  - cbn [count2]. unfold rows2. cbn [seq flat_map]. eapply walk_app; [apply walk2_row; lia|]. apply IH. lia.
Qed.
Lemma count2_eq r : forall m i, i + m = r -> 2 * count2 r i m = m * (m + 1).
Proof.
  induction m as [|m IH]; intros i Hr; [reflexivity|]. cbn [count2]. rewrite Nat.mul_add_distr_l, IH by lia. nia.
Qed.

(** ** Three dimensions *)
Lemma next3 r i j k : next_inds 3 r [i; j; k] =
  Ok (if r <=? i + j + S k then (if r <=? i + S j then [S i; 0; 0] else [i; S j; 0])
      else [i; j; S k]).
Proof.
  assert (S3 : forall a b c, list_sum [a; b; c] = a + b + c) by (intros; cbn; lia).
  assert (A0 : forall a b c x : nat, aset [a; b; c] 0 x = Ok [x; b; c]) by reflexivity.
  assert (A1 : forall a b c x : nat, aset [a; b; c] 1 x = Ok [a; x; c]) by reflexivity.
  assert (A2 : forall a b c x : nat, aset [a; b; c] 2 x = Ok [a; b; x]) by reflexivity.
  unfold next_inds. cbn -[Nat.leb list_sum]. rewrite A2. cbn [bind]. rewrite S3. destruct (Nat.leb_spec r (i + j + S k)).
  - rewrite A2. cbn -[Nat.leb list_sum aset]. rewrite A1. cbn -[Nat.leb list_sum aset]. rewrite S3, Nat.add_0_r, A1.
    destruct (Nat.leb_spec r (i + S j)); cbn [bind]; [|reflexivity]. cbn -[aset]. now rewrite A0.
  - cbn [bind]. rewrite S3. destruct (Nat.leb_spec r (i + j + S k)); [lia|reflexivity].
Qed.

Lemma walk3_row r i j : forall m k, i + j + k + m = r -> m <> 0 ->
  walk 3 r m [i; j; k] = Ok (map (fun x => [i; j; x]) (seq k m), if r <=? i + S j then [S i; 0; 0] else [i; S j; 0]).
Proof.
  induction m as [|m IH]; intros k Hr Hm; [lia|]. cbn [walk seq map]. rewrite next3. cbn [bind].
  destruct (Nat.leb_spec r (i + j + S k)).
  - assert (m = 0) by lia. subst m. reflexivity.
  - rewrite IH by lia. reflexivity.
Qed.

Lemma walk3_slab r i : forall m j, i + j + m = r -> m <> 0 ->
  walk 3 r (count2 (r - i) j m) [i; j; 0] = Ok (map (cons i) (rows2 (r - i) j m), [S i; 0; 0]).
Proof.
  induction m as [|m IH]; intros j Hr Hm; [lia|]. cbn [count2]. unfold rows2. cbn [seq flat_map]. rewrite map_app, map_map.
  assert (W := walk3_row r i j (r - i - j) 0 ltac:(lia) ltac:(lia)).
  destruct (Nat.leb_spec r (i + S j)) as [H|H].
  - assert (m = 0) by lia. subst m. cbn [count2 seq flat_map map]. rewrite Nat.add_0_r, app_nil_r. exact W.
  - eapply walk_app; [exact W|]. apply IH; lia.
Qed.

Definition slabs3 (r i m : nat) : list (list nat) := flat_map (fun i => map (cons i) (rows2 (r - i) 0 (r - i))) (seq i m).
Fixpoint count3 (r i m : nat) : nat := match m with O => 0 | S m => count2 (r - i) 0 (r - i) + count3 r (S i) m end.
Lemma walk3 r : forall m i, i + m = r -> walk 3 r (count3 r i m) [i; 0; 0] = Ok (slabs3 r i m, [r; 0; 0]).
Proof.
  induction m as [|m IH]; intros i Hr.
  - cbn. rewrite Nat.add_0_r in Hr. now subst.
  - cbn [count3]. unfold slabs3. cbn [seq flat_map]. eapply walk_app; [apply walk3_slab; lia|]. apply IH. lia.
Qed.
Lemma count3_eq r : forall m i, i + m = r -> 6 * count3 r i m = m * (m + 1) * (m + 2).
Proof.
  induction m as [|m IH]; intros i Hr; [reflexivity|]. cbn [count3]. rewrite Nat.mul_add_distr_l, IH by lia.
  replace (r - i) with (S m) by lia. pose proof (count2_eq (S m) (S m) 0 eq_refl). nia.
Qed.

(** ** Membership *)
Lemma in_rows2 r ind : In ind (rows2 r 0 r) <-> length ind = 2 /\ list_sum ind < r.
Proof.
  unfold rows2. rewrite in_flat_map. split.
  - intros (i & Hi & H). apply in_seq in Hi. apply in_map_iff in H. destruct H as (j & <- & Hj). apply in_seq in Hj. cbn. lia.
  - intros [L S]. destruct ind as [|i [|j [|? ?]]]; try discriminate. cbn in S. exists i. split; [apply in_seq; lia|].
    apply in_map_iff. exists j. split; [reflexivity|apply in_seq; lia].
Qed.
Lemma in_slabs3 r ind : In ind (slabs3 r 0 r) <-> length ind = 3 /\ list_sum ind < r.
Proof.
  unfold slabs3. rewrite in_flat_map. split.
  - intros (i & Hi & H). apply in_seq in Hi. apply in_map_iff in H. destruct H as (t & <- & Ht). apply in_rows2 in Ht.
    cbn. change (fold_right Nat.add 0 t) with (list_sum t). lia.
  - intros [L S]. destruct ind as [|i t]; try discriminate. cbn in S, L. change (fold_right Nat.add 0 t) with (list_sum t) in S.
    exists i. split; [apply in_seq; lia|]. apply in_map. apply in_rows2. lia.
Qed.

Lemma NoDup_flat_map {A B} (f : A -> list B) l : NoDup l -> (forall a, In a l -> NoDup (f a)) ->
  (forall a b x, In a l -> In b l -> In x (f a) -> In x (f b) -> a = b) -> NoDup (flat_map f l).
Proof.
  induction 1 as [|a l Hn Hl IH]; intros Hf Hd; [constructor|]. cbn [flat_map]. apply NoDup_app'.
  - apply Hf. now left.
  - apply IH; [intros; apply Hf; now right|]. intros b c x Hb Hc. apply Hd; now right.
  - intros x Hx Hx'. apply in_flat_map in Hx'. destruct Hx' as (b & Hb & Hxb). apply Hn. rewrite (Hd a b x); auto; [now left|now right].
Qed.

Lemma nodup_rows2 r i m : NoDup (rows2 r i m).
Proof.
  apply NoDup_flat_map; [apply seq_NoDup| |].
  - intros a _. apply NoDup_map_inj; [|apply seq_NoDup]. intros x y _ _ H. congruence.
  - intros a b x _ _ Ha Hb. apply in_map_iff in Ha, Hb. destruct Ha as (j & <- & _), Hb as (j' & E & _). congruence.
Qed.
Lemma nodup_slabs3 r i m : NoDup (slabs3 r i m).
Proof.
  apply NoDup_flat_map; [apply seq_NoDup| |].
  - intros a _. apply NoDup_map_inj; [|apply nodup_rows2]. intros x y _ _ H. congruence.
  - intros a b x _ _ Ha Hb. apply in_map_iff in Ha, Hb. destruct Ha as (j & <- & _), Hb as (j' & E & _). congruence.
Qed.

Lemma walk_len n r k : forall s l e, walk n r k s = Ok (l, e) -> length l = k.
Proof.
  induction k as [|k IH]; intros s l e H; cbn in H; [now inversion H|].
  destruct (next_inds n r s) as [t| | |]; cbn in H; try discriminate.
  destruct (walk n r k t) as [[l' e']| | |] eqn:E; cbn in H; try discriminate. inversion H; subst. cbn. f_equal. now apply IH in E.
Qed.

Lemma basis_main n r : 1 <= n <= 3 ->
  exists l, basis_indices n r = Ok l /\ length l = basis_size n r /\ NoDup l
    /\ forall ind, In ind l <-> length ind = n /\ list_sum ind < r.
Proof.
  intros Hn. unfold basis_indices. rewrite walk_loop.
  assert (V : n = 1 \/ n = 2 \/ n = 3) by lia. destruct V as [->|[->| ->]]; cbn [repeat].
  - unfold basis_size. rewrite walk1. cbn [bind app]. eexists. split; [reflexivity|]. split; [now rewrite map_length, seq_length|]. split.
    + apply NoDup_map_inj; [|apply seq_NoDup]. intros x y _ _ H. congruence.
    + intros ind. rewrite in_map_iff. split.
      * intros (i & <- & Hi). apply in_seq in Hi. cbn. lia.
      * intros [L S]. destruct ind as [|i [|? ?]]; try discriminate. cbn in S. exists i. split; [reflexivity|apply in_seq; lia].
  - assert (C : basis_size 2 r = count2 r 0 r).
    { unfold basis_size. pose proof (count2_eq r r 0 eq_refl) as H. rewrite <- H, Nat.mul_comm. now apply Nat.div_mul. }
    assert (W := walk2 r r 0 eq_refl). rewrite C, W. cbn [bind app]. eexists. split; [reflexivity|].
    split; [exact (walk_len _ _ _ _ _ _ W)|]. split; [apply nodup_rows2|apply in_rows2].
  - assert (C : basis_size 3 r = count3 r 0 r).
    { unfold basis_size. pose proof (count3_eq r r 0 eq_refl) as H. rewrite <- H, Nat.mul_comm. now apply Nat.div_mul. }
    assert (W := walk3 r r 0 eq_refl). rewrite C, W. cbn [bind app]. eexists. split; [reflexivity|].
    split; [exact (walk_len _ _ _ _ _ _ W)|]. split; [apply nodup_slabs3|apply in_slabs3].
Qed.

Local Open Scope R_scope.
Lemma fold_max l : forall x, (x <= fold_left Rmax l x) /\ forall y, In y l -> y <= fold_left Rmax l x.
Proof.
  induction l as [|a l IH]; intros x; cbn; [split; [lra|tauto]|]. destruct (IH (Rmax x a)) as [H1 H2].
  pose proof (Rmax_l x a). pose proof (Rmax_r x a). split; [lra|]. intros y [<-|Hy]; [lra|auto].
Qed.
Lemma fold_min l : forall x, (fold_left Rmin l x <= x) /\ forall y, In y l -> fold_left Rmin l x <= y.
Proof.
  induction l as [|a l IH]; intros x; cbn; [split; [lra|tauto]|]. destruct (IH (Rmin x a)) as [H1 H2].
  pose proof (Rmin_l x a). pose proof (Rmin_r x a). split; [lra|]. intros y [<-|Hy]; [lra|auto].
Qed.

Lemma scaled_range x l p : In p (x :: l) ->
  match scaled_coord x l p with
  | Some t => Rabs t <= 0.995
  | None => forall q, In q (x :: l) -> q = p
  end.
Proof.
  intros Hp. unfold scaled_coord, list_max, list_min.
  destruct (fold_max l x) as [M1 M2]. destruct (fold_min l x) as [N1 N2].
  set (mx := fold_left Rmax l x) in *. set (mn := fold_left Rmin l x) in *.
  assert (B : forall q, In q (x :: l) -> mn <= q <= mx).
  { intros q [<-|Hq]; [lra|]. split; auto. }
  destruct (Req_EM_T (mx - mn) 0) as [E|E].
  - intros q Hq. pose proof (B q Hq). pose proof (B p Hp). lra.
  - pose proof (B p Hp) as Hb. assert (P : 0 < mx - mn) by lra.
    apply Rabs_le. set (u := (p - (mn + mx) / 2) / (mx - mn)).
    assert (U : u * (mx - mn) = p - (mn + mx) / 2) by (unfold u; field; lra).
    assert (-0.5 <= u <= 0.5).
    { split; apply Rmult_le_reg_r with (mx - mn); try assumption; rewrite U; lra. }
    lra.
Qed.
