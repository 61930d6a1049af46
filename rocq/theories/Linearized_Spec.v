(** What the linearized equation is to be, in terms of the vectors. *)
From Coq Require Import Reals ZArith.
From Verif Require Import Linearized_Model.
Open Scope R_scope.

(** Numbers of vectors: -4 is the working state, -1 the linearization point, 0 the solution, 1 the right hand side. *)
Definition usable (v : Z) : Prop := (-4 <= v < 30)%Z.
Definition vector {W} (d : data W) (v : Z) : field := stages d (Z.to_nat (4 + v)).

(** Filling the faces does not touch the vectors, the explicit update only the vectors -4, -3 and -2 (its working data). *)
Definition keeps_vectors {W} (faces : data W -> data W) : Prop := forall d v, usable v -> vector (faces d) v = vector d v.
Definition keeps_upper {W} (update : data W -> data W) : Prop := forall d v, (-1 <= v < 30)%Z -> vector (update d) v = vector d v.
(** [d] with the working state moved by [finite_diff] times the vector [x], the data at which the update is evaluated *)
Definition moved {W} (d : data W) (x : Z) (d1 : data W) : Prop :=
  rest d1 = rest d /\ (forall e i, vector d1 (-4) e i = vector d (-4) e i + finite_diff * vector d x e i) /\ (forall v, (-3 <= v < 30)%Z -> vector d1 v = vector d v).
