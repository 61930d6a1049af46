(** Quadrature points of a tensor-product element, by coordinates. *)
From Coq Require Import List Arith.
From Verif Require Import Tensor_Spec.

(** Coordinate [d] of quadrature point [q] is [digit rs n d q]; coordinate [d] of a face quadrature point [f], whose
    face is normal to dimension [id], is [digit rs (n - 1) (drop id d) f]: the face has the other dimensions in order. *)
Definition drop (id d : nat) : nat := if d <? id then d else d - 1.

(** [q] lies in the row along [id] that starts at face point [f], at node [j]. *)
Definition in_row (n rs id f j q : nat) : Prop :=
  q < rs ^ n /\ digit rs n id q = j /\ forall d, d < n -> d <> id -> digit rs n d q = digit rs (n - 1) (drop id d) f.
