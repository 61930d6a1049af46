(** Sweeps in terms of displacements of points. *)
From Coq Require Import Reals List Arith Lia Lra FunctionalExtensionality.
From Verif Require Import Outcome RSum Tensor_Spec Tensor_Proofs Row_Model Row_Spec Row_Proofs Connection_Model Basis_Model Basis_Spec Basis_Proofs Quad_Model Quad_Spec Quad_Proofs Spatial_Model Spatial_Spec Spatial_Proofs Spatial_Proofs2 Spatial_Proofs3 Spatial_Proofs4 Spatial_Proofs5 Free_Spec Free_Model Free_Proofs1 Jac_Proofs4 Snap_Proofs1 Snap_Proofs2 Sweep_Model Sweep_Spec Sweep_Proofs1 Sweep_Proofs2.
From Verif Require Import Snap_Spec.
Import ListNotations.
Local Open Scope R_scope.

Lemma msign_sq s : msign s * msign s = 1. Proof. unfold msign. destruct (s =? 0)%nat; ring. Qed.

Section Points.
Variables (nd rs : nat) (node : nat -> R).
Hypotheses (RS : (0 < rs)%nat) (N : (0 < nd)%nat) (DI : distinct rs node).
Local Notation nfq := (rs ^ (nd - 1))%nat.
(** the coordinates of a point of an element, and of a point of its face [2*b+s] *)
Definition point (q c : nat) : R := node (digit rs nd c q).
Definition face_point (b s f c : nat) : R := if (c =? b)%nat then INR s else node (digit rs (nd - 1) (drop b c) f).
Definition displaced (w : wall) (adj : nat -> arr) (q : nat) : R := msign (w_sign w) * adj (w_elem w) (wall_offset nd rs w + foot nd rs (w_dim w) q)%nat.
Lemma moved_ext adj w x y : (w_dim w < nd)%nat -> (forall c, (c < nd)%nat -> c <> w_dim w -> x c = y c) -> moved nd rs node adj w x = moved nd rs node adj w y.
Proof.
  intros D H. unfold moved. f_equal. apply through_ext; [reflexivity|]. intros l L. unfold without. destruct (Nat.ltb_spec l (w_dim w)); apply H; lia.
Qed.
Lemma displaced_moved adj w q : (w_dim w < nd)%nat -> (q < rs ^ nd)%nat -> displaced w adj q = moved nd rs node adj w (point q).
Proof.
  intros D Q. unfold displaced, moved. f_equal. rewrite wall_offset_is by assumption. pose proof (foot_lt nd rs (w_dim w) q RS D Q) as F.
  rewrite (through_ext (nd - 1) rs node _ (fun k => adj (w_elem w) ((2 * w_dim w + w_sign w) * nfq + k)%nat) (without (w_dim w) (point q)) (fun l => node (digit rs (nd - 1) l (foot nd rs (w_dim w) q)))); [now rewrite through_node|reflexivity|].
  intros l L. unfold without, point. destruct (Nat.ltb_spec l (w_dim w)) as [E|E].
  - rewrite <- (digit_foot nd rs (w_dim w) RS D q l) by lia. unfold drop. destruct (Nat.ltb_spec l (w_dim w)); [reflexivity|lia].
  - rewrite <- (digit_foot nd rs (w_dim w) RS D q (S l)) by lia. unfold drop. destruct (Nat.ltb_spec (S l) (w_dim w)); [lia|]. now rewrite Nat.sub_succ, Nat.sub_0_r.
Qed.
Lemma without_at a b x t l : b <> a -> without a (at_coord x b t) l = at_coord (without a x) (if (b <? a)%nat then b else (b - 1)%nat) t l.
Proof.
  intros NE. unfold without, at_coord. destruct (Nat.ltb_spec l a), (Nat.ltb_spec b a); repeat (match goal with |- context [(?u =? ?v)%nat] => destruct (Nat.eqb_spec u v) end); try lia; reflexivity.
Qed.
Lemma through_along n k pts val a b x : (0 < k)%nat -> (a <= n)%nat -> (b <= n)%nat -> b <> a -> poly k (fun t => through n k pts val (without a (at_coord x b t))).
Proof.
  intros K A Bn NE. apply (poly_ext k (fun t => through n k pts val (at_coord (without a x) (if (b <? a)%nat then b else (b - 1)%nat) t))); [apply through_poly; [exact K|]|].
  - destruct (Nat.ltb_spec b a); lia.
  - intros t. apply through_ext; [reflexivity|]. intros l L. symmetry. now apply without_at.
Qed.
Lemma moved_poly adj w x b : (w_dim w < nd)%nat -> (b < nd)%nat -> b <> w_dim w -> poly rs (fun t => moved nd rs node adj w (at_coord x b t)).
Proof. intros D Bn NE. unfold moved. apply poly_scal. apply through_along; lia. Qed.
Lemma smooth_poly n lob adj w x b : (0 < n)%nat -> (w_dim w < nd)%nat -> (b < nd)%nat -> b <> w_dim w -> smooth nd rs node n lob adj w -> poly n (fun t => moved nd rs node adj w (at_coord x b t)).
Proof.
  intros N0 D Bn NE (val & E). apply (poly_ext n (fun t => through (nd - 1) n lob val (without (w_dim w) (at_coord x b t)))); [apply through_along; lia|]. intros t. now rewrite E.
Qed.
(** interpolation along a row of points *)
Lemma row_value adj w b f t : (w_dim w < nd)%nat -> (b < nd)%nat -> b <> w_dim w -> (f < nfq)%nat ->
  rsum rs (fun i => lagrange rs node i t * displaced w adj (i_qpoint (nth_row nd rs b f) i)) = moved nd rs node adj w (at_coord (face_point b 0 f) b t).
Proof.
  intros D Bn NE F. rewrite <- (reproduce rs node (fun t => moved nd rs node adj w (at_coord (face_point b 0 f) b t)) t DI) by now apply moved_poly. apply rsum_ext. intros i I. f_equal.
  rewrite displaced_moved by (assumption || now apply qpoint_lt). apply moved_ext; [exact D|]. intros c C _. unfold point, at_coord, face_point. rewrite digit_row by assumption. now destruct (c =? b)%nat.
Qed.
Lemma edge_value adj w b s f : (w_dim w < nd)%nat -> (b < nd)%nat -> b <> w_dim w -> (f < nfq)%nat ->
  rsum rs (fun i => lagrange rs node i (INR s) * displaced w adj (i_qpoint (nth_row nd rs b f) i)) = moved nd rs node adj w (face_point b s f).
Proof. intros D Bn NE F. rewrite row_value by assumption. apply moved_ext; [exact D|]. intros c C _. unfold at_coord, face_point. now destruct (c =? b)%nat. Qed.
Lemma point_along q b i : (b < nd)%nat -> (q < rs ^ nd)%nat -> (i < rs)%nat -> forall c, (c < nd)%nat -> point (along nd rs b q i) c = at_coord (point q) b (node i) c.
Proof. intros Bn Q I c C. unfold point, at_coord. rewrite digit_along by assumption. now destruct (c =? b)%nat. Qed.
Lemma along_value adj w b q t : (w_dim w < nd)%nat -> (b < nd)%nat -> b <> w_dim w -> (q < rs ^ nd)%nat ->
  rsum rs (fun i => lagrange rs node i t * displaced w adj (along nd rs b q i)) = moved nd rs node adj w (at_coord (point q) b t).
Proof.
  intros D Bn NE Q. rewrite <- (reproduce rs node (fun t => moved nd rs node adj w (at_coord (point q) b t)) t DI) by now apply moved_poly. apply rsum_ext. intros i I. f_equal.
  rewrite displaced_moved by (assumption || now apply along_lt). apply moved_ext; [exact D|]. intros c C _. now apply point_along.
Qed.
Lemma face_point_foot b s q c : (b < nd)%nat -> (q < rs ^ nd)%nat -> (c < nd)%nat -> face_point b s (foot nd rs b q) c = at_coord (point q) b (INR s) c.
Proof. intros Bn Q C. unfold face_point, at_coord, point. destruct (Nat.eqb_spec c b) as [->|NE]; [reflexivity|]. now rewrite digit_foot. Qed.
End Points.
