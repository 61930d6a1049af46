(** The documented orientation of connections (/repo/doc/mesh_io.dox, "laziest possible orientation") in coordinates.

    Element coordinates run from 0 to [m] in every dimension. Point [x] on face 0 and point [y] on face 1 are the same physical
    point if they agree in the dimensions of neither face, and along the remaining dimension of the plane of the two faces, which
    is dimension [dim1] of element 0 and dimension [dim0] of element 1, they run in the direction for which the gluing is a
    rotation (see [gluing_is_rotation] in Connection_Thm.v): the same direction if both faces have the same sign, otherwise
    opposite directions. *)
From Coq Require Import Reals ZArith List Arith Bool.
From Verif Require Import Connection_Model Tensor_Spec.
Local Open Scope nat_scope.
Import ListNotations.

(** "Either the dimensions or the signs of the two faces involved must be different." *)
Definition allowed (n : nat) (d : direction) : Prop :=
  dim0 d < n /\ dim1 d < n /\ (dim0 d <> dim1 d \/ sign0 d <> sign1 d).

(** Derivative of the change of coordinates from element 0 to element 1 across the connection: moving out of face 0 means
    moving in through face 1, and along the faces see [glued]. *)
Definition sgn (s : bool) : Z := if s then 1%Z else (-1)%Z.
Definition jac (d : direction) (r c : nat) : Z :=
  if (r =? dim1 d) && (c =? dim0 d) then (- (sgn (sign0 d) * sgn (sign1 d)))%Z
  else if (r =? dim0 d) && (c =? dim1 d) then (sgn (sign0 d) * sgn (sign1 d))%Z
  else if (r =? c) && negb (r =? dim0 d) && negb (r =? dim1 d) then 1%Z
  else 0%Z.
Definition det3 (m : nat -> nat -> Z) : Z :=
  (m 0%nat 0%nat * (m 1%nat 1%nat * m 2%nat 2%nat - m 1%nat 2%nat * m 2%nat 1%nat)
   - m 0%nat 1%nat * (m 1%nat 0%nat * m 2%nat 2%nat - m 1%nat 2%nat * m 2%nat 0%nat)
   + m 0%nat 2%nat * (m 1%nat 0%nat * m 2%nat 1%nat - m 1%nat 1%nat * m 2%nat 0%nat))%Z.

Definition glued (n m : nat) (d : direction) (x y : nat -> nat) : Prop :=
  (forall k, k < n -> k <> dim0 d -> k <> dim1 d -> y k = x k)
  /\ (dim0 d <> dim1 d -> y (dim0 d) = if Bool.eqb (sign0 d) (sign1 d) then x (dim1 d) else m - x (dim1 d)).

(** coordinates in the element of a point of a face normal to [a] that has the coordinates [f] within the face *)
Definition face_coord (a : nat) (f : nat -> nat) (k : nat) : nat := f (if k <? a then k else k - 1).

(** coordinates of point [i] in a row-major array of [rs^n] points *)
Definition coords (rs n i k : nat) : nat := digit rs n k i.

(** vertex [v] belongs to face [a], [s] *)
Definition on_face (n a : nat) (s : bool) (v : nat) : Prop := v < 2 ^ n /\ coords 2 n v a = Nat.b2n s.

(** position (0 or 1) along face dimension [k] of the [e]-th of the fine elements that share a face; they are listed in
    row-major order, and there is only one along a stretched dimension *)
Definition fine_pos (str : list bool) (e k : nat) : nat :=
  (e / 2 ^ (length (filter negb (skipn (k + 1) str)))) mod 2.
(** coordinates, in units of a quarter of the face, of the centre of a fine face, and of its corner [w] *)
Definition fine_centre (str : list bool) (e k : nat) : nat := if nth k str false then 2 else 1 + 2 * fine_pos str e k.
Definition fine_corner (str : list bool) (e : nat) (w : nat -> nat) (k : nat) : nat :=
  if nth k str false then 4 * w k else 2 * fine_pos str e k + 2 * w k.
(** number of fine elements that cover a face *)
Definition fine_count (str : list bool) : nat := 2 ^ length (filter negb str).

(** A refined connection covers one coarse face with fine ones. The coarse element is on side [rev] of the connection. *)
Definition glued_cf (n : nat) (d : direction) (rev : bool) (xc xf : nat -> nat) : Prop :=
  if rev then glued n 4 d xf xc else glued n 4 d xc xf.
(** coordinates within a face of a point of the element: remove dimension [a] *)
Definition in_face (a : nat) (x : nat -> nat) (k : nat) : nat := x (if k <? a then k else k + 1).
(** weight of corner [w] (0 or 1) along one dimension at coordinate [x] (in quarters) for linear interpolation *)
Definition corner_weight (x w : nat) : R := (if w =? 0 then 1 - INR x / 4 else INR x / 4)%R.
