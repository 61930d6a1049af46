(** [calc_jacobian]: what its loops do to the faces. *)
From Coq Require Import Reals List Arith Lia Lra FunctionalExtensionality Permutation.
From Verif Require Import Outcome RSum Tensor_Model Tensor_Spec Connection_Model Quad_Model Quad_Spec Spatial_Model Spatial_Spec Spatial_Proofs Spatial_Proofs2 Spatial_Proofs4 Spatial_Proofs5 Free_Spec Free_Model Free_Proofs1 Free_Proofs2 Jac_Model Jac_Spec.
Import ListNotations.
Local Open Scope R_scope.

(** ** steps on connections *)
Lemma write_in n a old k : (k < n)%nat -> write n a old k = a k. Proof. intros K. unfold write. destruct (Nat.ltb_spec k n); [reflexivity|lia]. Qed.
Lemma flip_square d s : flip_sign d s * flip_sign d s = 1. Proof. unfold flip_sign. destruct (flip_normal d s); ring. Qed.
Lemma entry_lt n nq j q : (j < n)%nat -> (q < nq)%nat -> (j * nq + q < n * nq)%nat. Proof. nia. Qed.
Section Step.
Variables (nd rs : nat).
Hypothesis R : (0 < rs)%nat.
Let nfq := (rs ^ (nd - 1))%nat.
Lemma fine_out c st id : id <> c_face c true -> set_fine nd rs c st id = st id.
Proof. intros H. unfold set_fine. now rewrite fput_out. Qed.
Lemma fine_value c st j q : c_face c false <> c_face c true -> (j < nd)%nat -> (q < nfq)%nat ->
  flip_sign (c_dir c) false * set_fine nd rs c st (c_face c false) (j * nfq + q)%nat = flip_sign (c_dir c) true * fp_match nd rs nd (c_dir c) (set_fine nd rs c st (c_face c true)) (j * nfq + q)%nat.
Proof.
  intros NE J Q. rewrite fine_out by exact NE. unfold set_fine. cbv zeta. rewrite fput_in.
  destruct (match_index nd rs (c_dir c) q R Q) as (p & P & E). fold nfq in E, P. rewrite E by exact J.
  destruct (restore_index nd rs (c_dir c) p R P) as (q' & Q' & E1 & E2). fold nfq in Q', E1, E2. unfold nfq. rewrite E1 by lia. fold nfq.
  assert (Z : q' = q).
  { specialize (E2 1%nat INR 0%nat ltac:(lia)). cbn [Nat.mul Nat.add] in E2.
    destruct (transpose_shuffles nd rs (c_dir c) R) as (t & T1 & T2), (flip_shuffles nd rs (c_dir c) R) as (f & F1 & F2).
    assert (M : forall x, (x < nfq)%nat -> fp_match nd rs 1 (c_dir c) INR x = INR (t (f x))).
    { intros x X. unfold fp_match. pose proof (F2 1%nat (fp_transpose nd rs 1 (c_dir c) INR) 0%nat x ltac:(lia) X) as Y. cbn [Nat.mul Nat.add] in Y. rewrite Y. pose proof (T2 1%nat INR 0%nat (f x) ltac:(lia)) as Y2. cbn [Nat.mul Nat.add] in Y2. apply Y2. now apply F1. }
    specialize (E 1%nat INR 0%nat ltac:(lia)). cbn [Nat.mul Nat.add] in E. rewrite M in E by exact Q. rewrite M in E2 by exact Q'. apply INR_eq in E, E2. rewrite <- E in E2.
    assert (I1 : f q' = f q). { rewrite <- (proj2 (T1 (f q') (proj1 (F1 q' Q')))), E2. apply T1. now apply F1. }
    rewrite <- (proj2 (F1 q' Q')), I1. now apply F1. }
  rewrite Z. rewrite write_in by now apply entry_lt. unfold flip_sign. destruct (flip_normal (c_dir c) false), (flip_normal (c_dir c) true); cbn [Bool.eqb]; ring.
Qed.
Lemma ghost_out c st id : id <> c_face c true -> set_ghost nd rs c st id = st id.
Proof. intros H. unfold set_ghost. now rewrite fput_out. Qed.
Lemma same_match n d (a : arr) : dim1 d = dim0 d -> fp_match nd rs n d a = a.
Proof.
  intros E. unfold fp_match, fp_flip, fp_transpose, flip_tangential, transpose. rewrite E, Nat.eqb_refl. cbn [negb andb].
  destruct (Nat.eqb_spec (dim0 d) 0) as [X|X], (Nat.eqb_spec (dim0 d) 2) as [Y|Y]; cbn [andb]; try reflexivity; exfalso; congruence.
Qed.
Lemma ghost_value c st j q : c_face c false <> c_face c true -> dim1 (c_dir c) = dim0 (c_dir c) -> sign1 (c_dir c) = negb (sign0 (c_dir c)) -> (j < nd)%nat -> (q < nfq)%nat ->
  flip_sign (c_dir c) false * set_ghost nd rs c st (c_face c false) (j * nfq + q)%nat = flip_sign (c_dir c) true * fp_match nd rs nd (c_dir c) (set_ghost nd rs c st (c_face c true)) (j * nfq + q)%nat.
Proof.
  intros NE E S J Q. rewrite ghost_out, same_match by assumption. unfold set_ghost. rewrite fput_in, write_in by now apply entry_lt. f_equal. unfold flip_sign, flip_normal. cbn [face_sign]. rewrite S. destruct (sign0 (c_dir c)); reflexivity.
Qed.
Lemma share_out c st id : id <> c_face c false -> id <> c_face c true -> share nd rs c st id = st id.
Proof. intros H0 H1. unfold share. cbv zeta. now rewrite !fput_out. Qed.
(** the average of both sides *)
Definition mean (c : con) (st : nat -> arr) (k : nat) : Rdefinitions.R :=
  1 / 2 * flip_sign (c_dir c) false * st (c_face c false) k + 1 / 2 * flip_sign (c_dir c) true * fp_match nd rs (nd + 2) (c_dir c) (st (c_face c true)) k.
Lemma share_0 c st j q : c_face c false <> c_face c true -> (j < nd)%nat -> (q < nfq)%nat ->
  share nd rs c st (c_face c false) (j * nfq + q)%nat = flip_sign (c_dir c) false * mean c st (j * nfq + q)%nat.
Proof.
  intros NE J Q. unfold share. cbv zeta. rewrite fput_out by exact NE. rewrite fput_in, write_in by now apply entry_lt. unfold mean. now rewrite Rplus_0_l.
Qed.
Lemma share_1 c st j q : (j < nd)%nat -> (q < nfq)%nat ->
  fp_match nd rs nd (c_dir c) (share nd rs c st (c_face c true)) (j * nfq + q)%nat = flip_sign (c_dir c) true * mean c st (j * nfq + q)%nat.
Proof.
  intros J Q. unfold share. cbv zeta. rewrite fput_in.
  destruct (transpose_shuffles nd rs (c_dir c) R) as (t & T1 & T2), (flip_shuffles nd rs (c_dir c) R) as (f & F1 & F2). fold nfq in T1, T2, F1, F2.
  destruct (F1 q Q) as [L1 E1]. destruct (T1 _ L1) as [L2 E2].
  unfold fp_match at 1. rewrite F2 by assumption. rewrite T2 by assumption. unfold fp_restore. rewrite T2 by (assumption || lia). rewrite E2. rewrite F2 by (assumption || lia). rewrite E1.
  rewrite write_in by now apply entry_lt. unfold mean. now rewrite Rplus_0_l.
Qed.
(** the permutation of the first [nd] variables *)
Lemma match_fewer n d a j q : (nd <= n)%nat -> (j < nd)%nat -> (q < nfq)%nat -> fp_match nd rs n d a (j * nfq + q)%nat = fp_match nd rs nd d a (j * nfq + q)%nat.
Proof. intros N J Q. destruct (match_index nd rs d q R Q) as (p & P & E). unfold nfq. rewrite !E by lia. reflexivity. Qed.
(** where both sides agree sharing changes nothing *)
Definition agree (c : con) (st : nat -> arr) : Prop := forall j q, (j < nd)%nat -> (q < nfq)%nat ->
  flip_sign (c_dir c) false * st (c_face c false) (j * nfq + q)%nat = flip_sign (c_dir c) true * fp_match nd rs nd (c_dir c) (st (c_face c true)) (j * nfq + q)%nat.
Lemma mean_agree c st j q : agree c st -> (j < nd)%nat -> (q < nfq)%nat -> mean c st (j * nfq + q)%nat = flip_sign (c_dir c) false * st (c_face c false) (j * nfq + q)%nat.
Proof. intros A J Q. unfold mean. rewrite match_fewer by (assumption || lia). rewrite !Rmult_assoc, <- A by assumption. lra. Qed.
Lemma share_keeps c st j q side : c_face c false <> c_face c true -> agree c st -> (j < nd)%nat -> (q < nfq)%nat -> share nd rs c st (c_face c side) (j * nfq + q)%nat = st (c_face c side) (j * nfq + q)%nat.
Proof.
  intros NE A J Q. destruct side.
  - destruct (transpose_shuffles nd rs (c_dir c) R) as (t & T1 & T2), (flip_shuffles nd rs (c_dir c) R) as (f & F1 & F2). fold nfq in T1, T2, F1, F2.
    set (p := f (t q)). assert (P : (p < nfq)%nat) by (apply F1; now apply T1).
    assert (M : forall a, fp_match nd rs nd (c_dir c) a (j * nfq + p)%nat = a (j * nfq + q)%nat).
    { intros a. unfold fp_match. rewrite F2 by assumption. unfold p. rewrite (proj2 (F1 _ (proj1 (T1 q Q)))). rewrite T2 by (try assumption; now apply T1). now rewrite (proj2 (T1 q Q)). }
    rewrite <- (M (share nd rs c st (c_face c true))), <- (M (st (c_face c true))). rewrite share_1 by assumption. rewrite mean_agree by assumption. rewrite (A j p J P), <- Rmult_assoc, flip_square. ring.
  - rewrite share_0 by assumption. rewrite mean_agree by assumption. rewrite <- Rmult_assoc, flip_square. ring.
Qed.
End Step.

(** ** loops over connections *)
Section Loop.
Variable step : con -> (nat -> arr) -> nat -> arr.
Hypothesis OUT : forall c st id, id <> c_face c false -> id <> c_face c true -> step c st id = st id.
Hypothesis LOCAL : forall c st st' side, st (c_face c false) = st' (c_face c false) -> st (c_face c true) = st' (c_face c true) -> step c st (c_face c side) = step c st' (c_face c side).
Lemma steps_out l : forall st id, ~ In id (side_faces l) -> fold_left (fun st c => step c st) l st id = st id.
Proof.
  induction l as [|c l IH]; intros st id H; [reflexivity|]. cbn [fold_left]. rewrite IH by (intros I; apply H; unfold side_faces; cbn [flat_map]; apply in_or_app; now right).
  apply OUT; intros ->; apply H; unfold side_faces; cbn [flat_map app]; [now left|right; now left].
Qed.
Lemma steps_in l : NoDup (side_faces l) -> forall st c side, In c l -> fold_left (fun st c => step c st) l st (c_face c side) = step c st (c_face c side).
Proof.
  induction l as [|c0 l IH]; intros N st c side I; [destruct I|]. unfold side_faces in N. cbn [flat_map app] in N. inversion N as [|? ? N0 N']; subst. inversion N' as [|? ? N1 N2]; subst. cbn [fold_left]. destruct I as [->|I].
  - rewrite steps_out; [reflexivity|]. fold (side_faces l) in N0, N1. destruct side; [exact N1|]. intros X. apply N0. now right.
  - rewrite IH by assumption.
    assert (X : forall s, In (c_face c s) (side_faces l)) by (intros s; apply in_flat_map; exists c; split; [exact I|destruct s; [right; now left|now left]]).
    assert (Y : forall s, step c0 st (c_face c s) = st (c_face c s)). { intros s. specialize (X s). apply OUT; intros E; rewrite E in X; [apply N0; right|apply N1]; exact X. }
    apply LOCAL; apply Y.
Qed.
End Loop.
Lemma share_local nd rs c st st' side : st (c_face c false) = st' (c_face c false) -> st (c_face c true) = st' (c_face c true) -> share nd rs c st (c_face c side) = share nd rs c st' (c_face c side).
Proof.
  intros E0 E1. unfold share. cbv zeta. rewrite E0, E1. destruct side; [now rewrite !fput_in|]. destruct (Nat.eq_dec (c_face c false) (c_face c true)) as [E|E]; [rewrite E, !fput_in; reflexivity|]. now rewrite !(fput_out _ (c_face c true)), !fput_in by exact E.
Qed.
Lemma fine_local nd rs c st st' side : st (c_face c false) = st' (c_face c false) -> st (c_face c true) = st' (c_face c true) -> set_fine nd rs c st (c_face c side) = set_fine nd rs c st' (c_face c side).
Proof.
  intros E0 E1. unfold set_fine. cbv zeta. rewrite E0, E1. destruct side; [now rewrite !fput_in|]. destruct (Nat.eq_dec (c_face c false) (c_face c true)) as [E|E]; [rewrite E, !fput_in; reflexivity|]. now rewrite !(fput_out _ (c_face c true)) by exact E.
Qed.
Lemma ghost_local nd rs c st st' side : st (c_face c false) = st' (c_face c false) -> st (c_face c true) = st' (c_face c true) -> set_ghost nd rs c st (c_face c side) = set_ghost nd rs c st' (c_face c side).
Proof.
  intros E0 E1. unfold set_ghost. rewrite E0, E1. destruct side; [now rewrite !fput_in|]. destruct (Nat.eq_dec (c_face c false) (c_face c true)) as [E|E]; [rewrite E, !fput_in; reflexivity|]. now rewrite !(fput_out _ (c_face c true)) by exact E.
Qed.
Lemma share_all_st nd rs l : forall st out, fst (share_all nd rs l (st, out)) = fold_left (fun st c => share nd rs c st) l st.
Proof. unfold share_all. induction l as [|c l IH]; intros st out; [reflexivity|]. cbn [fold_left]. apply IH. Qed.
Lemma share_all_out nd rs l : NoDup (side_faces l) -> forall st out c', In c' (snd (share_all nd rs l (st, out))) ->
  In c' out \/ exists c, In c l /\ c' = with_normal c (fold_left (fun st c => share nd rs c st) l st (c_face c false)).
Proof.
  unfold share_all. induction l as [|c l IH]; intros N st out c' I; [now left|]. unfold side_faces in N. cbn [flat_map app] in N. inversion N as [|? ? N0 N']; subst. inversion N' as [|? ? N1 N2]; subst. fold (side_faces l) in N0, N1. cbn [fold_left] in *.
  destruct (IH N2 _ _ _ I) as [J|(c2 & J & E)].
  - apply in_app_or in J as [J|[<-|[]]]; [now left|]. right. exists c. split; [now left|]. f_equal. symmetry. apply (steps_out (share nd rs) (share_out nd rs)). intros X. apply N0. now right.
  - right. exists c2. split; [now right|exact E].
Qed.
Lemma share_all_faces nd rs l : forall st out, map (fun c => (c_face c, c_deformed c, c_dir c)) (snd (share_all nd rs l (st, out))) = map (fun c => (c_face c, c_deformed c, c_dir c)) out ++ map (fun c => (c_face c, c_deformed c, c_dir c)) l.
Proof. unfold share_all. induction l as [|c l IH]; intros st out; [now rewrite app_nil_r|]. cbn [fold_left]. rewrite IH, map_app. cbn [map]. now rewrite <- app_assoc. Qed.
Lemma sides_by_face l l' : map (fun c => (c_face c, c_deformed c, c_dir c)) l = map (fun c => (c_face c, c_deformed c, c_dir c)) l' -> side_faces l = side_faces l'.
Proof.
  revert l'. induction l as [|c l IH]; intros [|c' l'] E; try discriminate; [reflexivity|]. cbn [map] in E. inversion E as [[E1 E2 E3 E4]]. unfold side_faces. cbn [flat_map]. rewrite E1. f_equal. now apply IH.
Qed.
(** ** mortars *)
Lemma prolong_refined_value nd rs n_var b scl coarse fine str st : (0 < rs)%nat -> (forall k, (k < n_fine nd str)%nat -> coarse <> fine k) ->
  (forall k l, (k < n_fine nd str)%nat -> (l < n_fine nd str)%nat -> fine k = fine l -> k = l) ->
  forall k v q, (k < n_fine nd str)%nat -> (v < n_var)%nat -> (q < rs ^ (nd - 1))%nat -> prolong_refined nd rs n_var b scl coarse fine str st (fine k) (v * rs ^ (nd - 1) + q)%nat
  = face_dims nd rs str (fun x => x * (1 + INR (Nat.b2n scl))) (b_prolong b) k (var_of (rs ^ (nd - 1)) v (st coarse)) q.
Proof.
  intros R C J k0 v0 q0 K0 V0 Q0. set (nfq := (rs ^ (nd - 1))%nat) in *.
  set (x := fun k v => face_dims nd rs str (fun x => x * (1 + INR (Nat.b2n scl))) (b_prolong b) k (var_of nfq v (st coarse))).
  set (P := fun n (s : nat -> arr) => s coarse = st coarse /\ forall k v q, (k < n)%nat -> (k < n_fine nd str)%nat -> (v < n_var)%nat -> (q < nfq)%nat -> s (fine k) (v * nfq + q)%nat = x k v q).
  unfold prolong_refined. fold nfq. match goal with |- context [loop ?n ?body ?s] => assert (L : P n (loop n body s)); [apply (loop_inv P)|] end.
  - split; [reflexivity|intros; lia].
  - intros k s K (A & B).
    set (P2 := fun m (t : nat -> arr) => t coarse = st coarse /\ (forall id, id <> fine k -> t id = s id) /\ (forall v q, (v < m)%nat -> (q < nfq)%nat -> t (fine k) (v * nfq + q)%nat = x k v q)).
    match goal with |- P _ (loop ?n ?body ?s) => assert (L2 : P2 n (loop n body s)); [apply (loop_inv P2)|] end.
    + split; [exact A|]. split; [intros; reflexivity|intros; lia].
    + intros v t V (D & E & F). split; [rewrite fput_out by (now apply C); exact D|]. split; [intros id I; rewrite fput_out by (exact I); now apply E|].
      intros v' q V' Q. rewrite fput_in, D. unfold put_var. rewrite flat_div, flat_mod by exact Q. destruct (Nat.eqb_spec v' v) as [->|NE]; [reflexivity|apply F; [lia|exact Q]].
    + destruct L2 as (D & E & F). split; [exact D|]. intros l v q L L' V Q. destruct (Nat.eq_dec l k) as [->|NE]; [now apply F|]. rewrite E by (intros Z; apply J in Z; lia). apply B; try assumption; lia.
  - now apply L.
Qed.
