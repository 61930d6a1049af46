(** One element in a sweep. *)
From Coq Require Import Reals List Arith Lia Lra.
From Verif Require Import Outcome RSum Tensor_Spec Tensor_Proofs Row_Model Row_Spec Row_Proofs Connection_Model Basis_Model Basis_Spec Basis_Proofs Quad_Model Quad_Spec Quad_Proofs Spatial_Model Spatial_Spec Spatial_Proofs Spatial_Proofs2 Free_Spec Free_Proofs1 Jac_Proofs4 Sweep_Model Sweep_Spec Snap_Proofs1 Snap_Proofs2.
From Verif Require Import Snap_Spec.
Import ListNotations.
Local Open Scope R_scope.

(** ** writing every row of one dimension, each from what is in it *)
Section Rows.
Variables (nd rs d : nat) (g : nat -> (nat -> R) -> nat -> R) (body : row_index -> arr -> arr).
Hypotheses (RS : (0 < rs)%nat) (D : (d < nd)%nat).
Hypothesis EX : forall f r r' i, (forall j, (j < rs)%nat -> r j = r' j) -> g f r i = g f r' i.
Hypothesis BODY : forall f s, body (nth_row nd rs d f) s = loop rs (fun i a => put a (i_qpoint (nth_row nd rs d f) i) (g f (fun i => s (i_qpoint (nth_row nd rs d f) i)) i)) s.
Lemma rows_set s q : for_rows nd rs d body s q = if (q <? rs ^ nd)%nat then g (foot nd rs d q) (fun i => s (along nd rs d q i)) (digit rs nd d q) else s q.
Proof.
  rewrite for_rows_eq by lia. set (nfq := (rs ^ (nd - 1))%nat).
  assert (H : (forall f i, (f < nfq)%nat -> (i < rs)%nat -> loop nfq (fun f => body (nth_row nd rs d f)) s (i_qpoint (nth_row nd rs d f) i) = if (f <? nfq)%nat then g f (fun i => s (i_qpoint (nth_row nd rs d f) i)) i else s (i_qpoint (nth_row nd rs d f) i)) /\
    forall k, (rs ^ nd <= k)%nat -> loop nfq (fun f => body (nth_row nd rs d f)) s k = s k).
  { apply (loop_inv (fun p a => (forall f i, (f < nfq)%nat -> (i < rs)%nat -> a (i_qpoint (nth_row nd rs d f) i) = if (f <? p)%nat then g f (fun i => s (i_qpoint (nth_row nd rs d f) i)) i else s (i_qpoint (nth_row nd rs d f) i)) /\
      forall k, (rs ^ nd <= k)%nat -> a k = s k) nfq).
    - split; [intros f i F I; destruct (Nat.ltb_spec f 0); [lia|reflexivity]|reflexivity].
    - intros p a P (A & B). rewrite BODY. split.
      + intros f i F I. destruct (Nat.eq_dec f p) as [->|NE].
        * rewrite (loop_put_in rs (fun i => i_qpoint (nth_row nd rs d p) i) (fun i _ => g p (fun j => a (i_qpoint (nth_row nd rs d p) j)) i)); [|intros x y X Y E; apply (qpoint_inj nd rs d p x p y) in E; lia|exact I].
          destruct (Nat.ltb_spec p (S p)); [|lia]. apply EX. intros j J. rewrite A by assumption. destruct (Nat.ltb_spec p p); [lia|reflexivity].
        * rewrite (loop_put_out rs (fun i => i_qpoint (nth_row nd rs d p) i) (fun i _ => g p (fun j => a (i_qpoint (nth_row nd rs d p) j)) i)) by (intros x X E; apply (qpoint_inj nd rs d p x f i) in E; lia).
          rewrite A by assumption. destruct (Nat.ltb_spec f p), (Nat.ltb_spec f (S p)); try lia; reflexivity.
      + intros k K. rewrite (loop_put_out rs (fun i => i_qpoint (nth_row nd rs d p) i) (fun i _ => g p (fun j => a (i_qpoint (nth_row nd rs d p) j)) i)); [now apply B|]. intros x X E. pose proof (qpoint_lt nd rs d p x RS D P X). lia. }
  destruct H as (A & B). destruct (Nat.ltb_spec q (rs ^ nd)) as [Q|Q]; [|now apply B]. rewrite <- (own_row nd rs d q RS D) at 1. pose proof (foot_lt nd rs d q RS D Q) as F. pose proof (digit_lt rs nd d q RS) as I.
  rewrite A by assumption. destruct (Nat.ltb_spec (foot nd rs d q) nfq); [|unfold nfq in *; lia]. apply EX. intros j J. now rewrite row_along.
Qed.
End Rows.

Lemma wall_offset_is nd rs w : (0 < rs)%nat -> (0 < nd)%nat -> wall_offset nd rs w = ((2 * w_dim w + w_sign w) * rs ^ (nd - 1))%nat.
Proof. intros RS N. unfold wall_offset. destruct nd as [|n]; [lia|]. cbn [Nat.pow]. rewrite Nat.sub_succ, Nat.sub_0_r. rewrite (Nat.mul_comm rs), Nat.mul_assoc, Nat.div_mul; lia. Qed.
Lemma face_qpoint_nth nd rs d f : i_face_qpoint (nth_row nd rs d f) = f. Proof. reflexivity. Qed.

Section Element.
Variables (nd rs n : nat) (node lob : nat -> R).
Hypotheses (RS : (0 < rs)%nat) (N : (0 < nd)%nat).
Lemma fill_wall_is w adj s q : (w_dim w < nd)%nat -> fill_wall nd rs w adj s q = if (q <? rs ^ nd)%nat then msign (w_sign w) * adj (wall_offset nd rs w + foot nd rs (w_dim w) q)%nat else s q.
Proof. intros D. unfold fill_wall. apply (rows_set nd rs (w_dim w) (fun f _ _ => msign (w_sign w) * adj (wall_offset nd rs w + f)%nat)); trivial. Qed.
(** the values at the Lobatto points, with new ends *)
Definition ends (v : nat -> R) (l : nat -> R) (j : nat) : R := if (j =? n - 1)%nat then v 1%nat else if (j =? 0)%nat then v 0%nat else l j.
Lemma fit_dim_is faces j s q : (2 <= n)%nat -> (j < nd)%nat -> Sweep_Model.fit_dim nd rs n node lob faces j s q =
  if (q <? rs ^ nd)%nat then rsum n (fun l => lagrange n lob l (node (digit rs nd j q)) * ends (fun sg => faces (2 * j + sg)%nat (foot nd rs j q)) (fun l => rsum rs (fun i => lagrange rs node i (lob l) * s (along nd rs j q i))) l) else s q.
Proof.
  intros N2 J. unfold Sweep_Model.fit_dim.
  rewrite (rows_set nd rs j (fun f row i => mat_vec n (interpolate n lob node) (loop 2 (fun i_sign l => put l (i_sign * (n - 1))%nat (faces (2 * j + i_sign)%nat f)) (mat_vec rs (interpolate rs node lob) row)) i)).
  - destruct (q <? rs ^ nd)%nat; [|reflexivity]. unfold mat_vec at 1. apply rsum_ext. intros l L. rewrite interpolate_lagrange. f_equal. unfold loop, ends. cbn [seq fold_left]. unfold put. rewrite Nat.mul_1_l, Nat.mul_0_l.
    destruct (l =? n - 1)%nat; [reflexivity|]. destruct (l =? 0)%nat; [reflexivity|]. reflexivity.
  - exact RS. - exact J.
  - intros f r r' i E. unfold mat_vec. apply rsum_ext. intros l L. f_equal. unfold loop. cbn [seq fold_left]. unfold put. destruct (l =? 1 * (n - 1))%nat; [reflexivity|]. destruct (l =? 0 * (n - 1))%nat; [reflexivity|].
    apply rsum_ext. intros k K. now rewrite E.
  - reflexivity.
Qed.
Lemma read_wall_in w s adj f : (w_dim w < nd)%nat -> (f < rs ^ (nd - 1))%nat -> read_wall nd rs w s adj (wall_offset nd rs w + f)%nat = msign (w_sign w) * s (i_qpoint (nth_row nd rs (w_dim w) f) 0).
Proof.
  intros D F. unfold read_wall. rewrite for_rows_eq by lia. exact (loop_put_in (rs ^ (nd - 1)) (fun f => wall_offset nd rs w + f)%nat (fun f _ => msign (w_sign w) * s (i_qpoint (nth_row nd rs (w_dim w) f) 0%nat)) adj f ltac:(cbv beta; intros; lia) F).
Qed.
Lemma read_wall_out w s adj k : (w_dim w < nd)%nat -> (forall f, (f < rs ^ (nd - 1))%nat -> k <> wall_offset nd rs w + f)%nat -> read_wall nd rs w s adj k = adj k.
Proof.
  intros D F. unfold read_wall. rewrite for_rows_eq by lia. apply (loop_put_out (rs ^ (nd - 1)) (fun f => wall_offset nd rs w + f)%nat (fun f _ => msign (w_sign w) * s (i_qpoint (nth_row nd rs (w_dim w) f) 0%nat))). intros i I E. exact (F i I (eq_sym E)).
Qed.
End Element.
