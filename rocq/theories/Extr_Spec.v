(** Specification vocabulary for extruded elements. *)
From Coq Require Import ZArith List Bool Arith.
From Verif Require Import Outcome Tree_Model Update_Model Update_Spec Trim_Spec Join_Model Join_Spec.
Import ListNotations.
Local Open Scope nat_scope.

(** The faces given belong to extruded elements, have no connections yet, and none is given twice. *)
Definition fits (js : joined) (fs : list (list face)) : Prop :=
  NoDup (concat fs) /\ forall f, In f (concat fs) -> is_extruded (j_st js) (fst (fst f)) /\ ~ connected js f.
Definition fitting (sides : joined -> list (list face)) : Prop := forall js, fits js (sides js).

(** Every face of an element of the tree has a connection. *)
Definition tree_closed (n : nat) (js : joined) : Prop :=
  forall i p x d s, on_leaf (j_st js) i p x -> d < n -> connected js (i, d, s).
