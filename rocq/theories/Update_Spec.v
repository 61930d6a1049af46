(** Specification vocabulary for mesh adaptation: what a state of the mesh looks like from outside, in terms of the nodes
    of the tree and the elements paired with them. Uses of the model only the data types. *)
From Coq Require Import ZArith List Bool Arith.
From Verif Require Import Outcome Tree_Model Tree_Spec Update_Model.
Import ListNotations.
Local Open Scope nat_scope.

(** Element number [i] sits on the node [p] and is not marked for deletion. *)
Definition lives (st : state) (i : nat) (p : path) : Prop :=
  exists x e, subtree (s_tree st) p = Some x /\ t_elem x = Some (Z.of_nat i) /\
              nth_error (s_elems st) i = Some e /\ (e_record e <> 2)%Z.

(** A leaf with an element. *)
Definition occupied (st : state) (p : path) (x : tree) : Prop := leaf_at (s_tree st) p x /\ exists i, lives st i p.

(** The numbers in the tree are consistent with the elements: every node that has an element has one that remembers the
    node, and only leaves have elements that are not marked for deletion. *)
Definition consistent (n : nat) (st : state) : Prop :=
  reachable n (s_tree st) /\
  forall p x z, subtree (s_tree st) p = Some x -> t_elem x = Some z ->
    exists i e, z = Z.of_nat i /\ nth_error (s_elems st) i = Some e /\ e_path e = Some p /\
                ((e_record e <> 2)%Z -> t_children x = []).

(** The same for a mesh between two updates: only leaves have elements at all (the records mean nothing there). *)
Definition settled (n : nat) (st : state) : Prop :=
  reachable n (s_tree st) /\
  forall p x z, subtree (s_tree st) p = Some x -> t_elem x = Some z ->
    t_children x = [] /\ exists i e, z = Z.of_nat i /\ nth_error (s_elems st) i = Some e /\ e_path e = Some p.

(** No element is lost: an element made for a node and not marked for deletion is still the element of that node. *)
Definition no_orphans (st : state) : Prop :=
  forall i e p, nth_error (s_elems st) i = Some e -> e_path e = Some p -> (e_record e <> 2)%Z ->
    exists x, subtree (s_tree st) p = Some x /\ t_elem x = Some (Z.of_nat i).

(** The mesh fills the tree: every leaf has an element. *)
Definition filled (st : state) : Prop := forall p x, leaf_at (s_tree st) p x -> exists i, lives st i p.

(** No node is marked as surface. *)
Definition no_surface (st : state) : Prop := forall p x, subtree (s_tree st) p = Some x -> (t_status x <> 0)%Z.

(** A direction to an edge: two entries are 1 or -1, the others are 0. *)
Definition edge_direction (n : nat) (dir : list Z) : Prop :=
  length dir = n /\ exists a b, a < b /\ b < n /\
    (nth a dir 0 = 1 \/ nth a dir 0 = -1)%Z /\ (nth b dir 0 = 1 \/ nth b dir 0 = -1)%Z /\
    forall k, k < n -> k <> a -> k <> b -> nth k dir 0%Z = 0%Z.

(** The refinement levels of elements sharing a face differ by at most one, and no element has an element more than one
    level finer at one of its edges. *)
Definition balanced (n : nat) (st : state) : Prop :=
  forall p x q y, occupied st p x -> occupied st q y ->
    (forall d sign, d < n -> sign = 1%Z \/ sign = (-1)%Z -> share_face n d sign x y ->
       t_level y <= t_level x + 1 /\ t_level x <= t_level y + 1) /\
    (forall dir, edge_direction n dir -> touches n dir x y -> t_level y <= t_level x + 1).

(** Every leaf has an element. *)
Definition covered (st : state) : Prop := forall p x, leaf_at (s_tree st) p x -> t_elem x <> None.

(** Every element that was made for a node is the element of that node. *)
Definition linked (st : state) : Prop :=
  forall i e p, nth_error (s_elems st) i = Some e -> e_path e = Some p ->
    exists x, subtree (s_tree st) p = Some x /\ t_elem x = Some (Z.of_nat i).

(** ** What the caller and the extruded elements ask for
    [cons]: the pairs of an extruded element and the element it was extruded from. *)
Definition only_finer (ref unref : nat -> bool) (i : nat) : Prop := ref i = true /\ unref i = false.
Definition only_coarser (ref unref : nat -> bool) (i : nat) : Prop := unref i = true /\ ref i = false.

(** Refinement of element number [i] is requested for itself or for an element extruded from it. *)
Definition wants_finer (ref unref : nat -> bool) (cons : list (nat * nat)) (st : state) (i : nat) : Prop :=
  only_finer ref unref i \/ exists o, In (o, i) cons /\ o < length (s_elems st) /\ only_finer ref unref o.

(** Refinement of element number [i] is not requested, and coarsening is requested for it, unless it has extruded
    elements that may have requested it. *)
Definition wants_coarser (ref unref : nat -> bool) (cons : list (nat * nat)) (st : state) (i : nat) : Prop :=
  ~ wants_finer ref unref cons st i /\ (only_coarser ref unref i \/ exists o, In (o, i) cons).

(** Neither element number [i] nor an element extruded from it is locked. *)
Definition unlocked (cons : list (nat * nat)) (st : state) (i : nat) : Prop :=
  (exists e, nth_error (s_elems st) i = Some e /\ e_locked e = false) /\
  forall o e, In (o, i) cons -> nth_error (s_elems st) o = Some e -> e_locked e = false.
