(** Specification vocabulary for the deletion of elements with bad exposed faces and for the deformed layer. Uses of the
    model only the data types. *)
From Coq Require Import ZArith List Bool Arith Permutation.
From Verif Require Import Outcome Tree_Model Tree_Spec Update_Model Update_Spec.
Import ListNotations.
Local Open Scope nat_scope.

Definition unit_sign (z : Z) : Prop := z = 1%Z \/ z = (-1)%Z.

(** All leaves of the tree at a face of the node [x] have elements. At the boundary of the tree this holds. *)
Definition covered_face (n : nat) (st : state) (x : tree) (d : nat) (sign : Z) : Prop :=
  forall q y, leaf_at (s_tree st) q y -> share_face n d sign x y -> occupied st q y.

(** Directions to an edge between the faces of dimensions [a], [b]; to a corner between those of [a], [b], [c]. *)
Definition edge_between (n : nat) (dir : list Z) (a b : nat) : Prop :=
  length dir = n /\ a < b /\ b < n /\ unit_sign (nth a dir 0%Z) /\ unit_sign (nth b dir 0%Z) /\
  forall k, k < n -> k <> a -> k <> b -> nth k dir 0%Z = 0%Z.
Definition corner_between (n : nat) (dir : list Z) (a b c : nat) : Prop :=
  length dir = n /\ a < b /\ b < c /\ c < n /\ unit_sign (nth a dir 0%Z) /\ unit_sign (nth b dir 0%Z) /\ unit_sign (nth c dir 0%Z) /\
  forall k, k < n -> k <> a -> k <> b -> k <> c -> nth k dir 0%Z = 0%Z.

(** The face of each dimension to which [dir] points is covered or not. *)
Definition side_covered (n : nat) (st : state) (x : tree) (dir : list Z) (d : nat) : Prop := covered_face n st x d (nth d dir 0%Z).

(** What extrusion from the exposed faces needs. *)
Record extrudable (n : nat) (st : state) : Prop := {
  (** a face is covered by elements completely or not at all *)
  ex_face : forall p x q y d sign, occupied st p x -> occupied st q y -> d < n -> unit_sign sign -> share_face n d sign x y ->
    covered_face n st x d sign;
  (** elements that touch across an edge (in two dimensions, a vertex) have a common neighbour *)
  ex_edge : forall p x q y dir a b, occupied st p x -> occupied st q y -> edge_between n dir a b -> touches n dir x y ->
    t_level x <= t_level y -> side_covered n st x dir a \/ side_covered n st x dir b;
  (** so do elements that touch only at a corner *)
  ex_corner : forall p x q y dir a b c, occupied st p x -> occupied st q y -> corner_between n dir a b c -> touches n dir x y ->
    t_level x <= t_level y -> side_covered n st x dir a \/ side_covered n st x dir b \/ side_covered n st x dir c;
  (** in three dimensions an edge of one exposed face is covered by elements completely or not at all *)
  ex_partial : n = 3 -> forall p x q y dir a b, occupied st p x -> occupied st q y -> edge_between n dir a b -> touches n dir x y ->
    side_covered n st x dir a /\ ~ side_covered n st x dir b \/ ~ side_covered n st x dir a /\ side_covered n st x dir b ->
    forall q' y', leaf_at (s_tree st) q' y' -> touches n dir x y' -> occupied st q' y'
}.

(** [st'] is [st] with some elements marked for deletion; only elements that have a node are marked. *)
Definition only_marks (st st' : state) : Prop :=
  s_tree st' = s_tree st /\ length (s_elems st') = length (s_elems st) /\
  forall i e, nth_error (s_elems st) i = Some e -> exists e', nth_error (s_elems st') i = Some e' /\
    e_path e' = e_path e /\ e_def e' = e_def e /\ e_locked e' = e_locked e /\
    (e_record e' = e_record e \/ e_record e' = 2%Z /\ exists p x, subtree (s_tree st) p = Some x /\ t_elem x = Some (Z.of_nat i)).

(** ** The deformed layer *)

(** The nodes whose elements have to be deformed: those with an exposed face; their neighbours, except across the exposed
    face and opposite to it; and all elements at one face of such a node if one of them has to be. *)
Inductive deformable (n : nat) (st : state) : path -> Prop :=
| df_exposed p x d sign :
    occupied st p x -> d < n -> unit_sign sign -> ~ covered_face n st x d sign -> deformable n st p
| df_side p x d sign d' sign' q y :
    occupied st p x -> d < n -> unit_sign sign -> ~ covered_face n st x d sign ->
    d' < n -> d' <> d -> unit_sign sign' -> occupied st q y -> share_face n d' sign' x y -> deformable n st q
| df_hanging p x d sign q y r z :
    deformable n st p -> occupied st p x -> d < n -> unit_sign sign ->
    occupied st q y -> share_face n d sign x y -> deformable n st q ->
    occupied st r z -> share_face n d sign x z -> deformable n st r.

(** The same nodes: positions, sizes, statuses, and which are leaves. *)
Definition same_nodes (t t' : tree) : Prop :=
  (forall p x, subtree t p = Some x -> exists x', subtree t' p = Some x' /\
     t_level x' = t_level x /\ t_coords x' = t_coords x /\ t_status x' = t_status x /\ (t_children x' = [] <-> t_children x = [])) /\
  (forall p, node_at t' p -> node_at t p).

(** The element number [i] is deformed. *)
Definition deformed (st : state) (i : nat) : Prop := exists e, nth_error (s_elems st) i = Some e /\ e_def e = true.

(** The records with which the layer is made: an element on a node of the tree stays or is marked for deletion, and no
    element is marked for exchange. *)
Definition ready (st : state) : Prop :=
  (forall p x i e, subtree (s_tree st) p = Some x -> t_elem x = Some (Z.of_nat i) -> nth_error (s_elems st) i = Some e ->
     e_record e = 0%Z \/ e_record e = 2%Z) /\
  (forall i e, nth_error (s_elems st) i = Some e -> e_record e <> 3%Z).

(** Some order of the elements. *)
Definition some_order (st : state) (l : list nat) : Prop := Permutation l (seq 0 (length (s_elems st))).
