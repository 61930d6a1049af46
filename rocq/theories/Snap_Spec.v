(** Where the points of elements and of snapped faces must lie. *)
From Coq Require Import Reals List Arith.
From Verif Require Import RSum Tensor_Spec Free_Spec.
Import ListNotations.
Local Open Scope R_scope.

(** [x] with coordinate [c] replaced *)
Definition at_coord (x : nat -> R) (c : nat) (t : R) (k : nat) : R := if (k =? c)%nat then t else x k.
(** The element is spanned by its vertices. In every direction the points are shifted along the line from one end of the element
    to the other, by the multiples of its length that the adjustments of the points of the two faces in line with them say,
    in the proportion of the distances from the faces. *)
Definition warped (nd rs : nat) (node vert adj : nat -> R) (q : nat) : R :=
  let x d := node (digit rs nd d q) in
  let shift d s := adj ((2 * d + s) * rs ^ (nd - 1) + foot nd rs d q)%nat in
  multilinear nd vert x + rsum nd (fun d => ((1 - x d) * shift d 0%nat + x d * shift d 1%nat) * (multilinear nd vert (at_coord x d 1) - multilinear nd vert (at_coord x d 0))).

(** the polynomial through the values [val] at the points with [n] coordinates among [node] *)
Definition lagrange_poly (rs : nat) (node : nat -> R) (j : nat) (x : R) : R := rprod rs (fun m => if (j =? m)%nat then 1 else (x - node m) / (node j - node m)).
Definition through (n rs : nat) (node val : nat -> R) (y : nat -> R) : R := rsum (rs ^ n) (fun k => rprod n (fun l => lagrange_poly rs node (digit rs n l k) (y l)) * val k).
(** the point of the element where its face [2*a+s] has the coordinates [y] *)
Definition on_face_at (a s : nat) (y : nat -> R) (d : nat) : R := if (d <? a)%nat then y d else if (d =? a)%nat then INR s else y (d - 1)%nat.
Definition spanned (nd : nat) (vert : nat -> nat -> R) (a s : nat) (y : nat -> R) : list R := map (fun r => multilinear nd (vert r) (on_face_at a s y)) (seq 0 nd).
(** an intersection that no other is nearer to the face than *)
Definition nearest (s : nat) (sects : list R) (t : R) : Prop := In t sects /\ forall t', In t' sects -> Rabs (t - INR s) <= Rabs (t' - INR s).
(** The function [A] of the coordinates of the face changes faster than 1 along a coordinate, or, with two coordinates, its
    derivative does, in a point with coordinates among [node]. *)
Definition steep_at (n rs : nat) (node : nat -> R) (A : (nat -> R) -> R) : Prop :=
  (exists k l D, (k < rs ^ n)%nat /\ (l < n)%nat /\ let y l := node (digit rs n l k) in derivable_pt_lim (fun x => A (at_coord y l x)) (y l) D /\ 1 < Rabs D) \/
  (n = 2%nat /\ exists k D E, (k < rs ^ n)%nat /\ let y l := node (digit rs n l k) in
    (forall x, derivable_pt_lim (fun z => A (at_coord (at_coord y 1 x) 0 z)) (y 0%nat) (E x)) /\ derivable_pt_lim E (y 1%nat) D /\ 1 < Rabs D).
