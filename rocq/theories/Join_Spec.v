(** Specification vocabulary for the connections between elements. Uses of the model only the data types and which faces a
    connection is connected to. *)
From Coq Require Import ZArith QArith List Bool Arith.
From Verif Require Import Outcome Tree_Model Tree_Spec Update_Model Update_Spec Trim_Spec Join_Model.
Import ListNotations.
Local Open Scope nat_scope.

(** The element number [i] is the element of the leaf [x] at [p]. *)
Definition on_leaf (st : state) (i : nat) (p : path) (x : tree) : Prop := leaf_at (s_tree st) p x /\ lives st i p.

(** The element number [i] was not made for a node of the tree. *)
Definition is_extruded (st : state) (i : nat) : Prop := exists e, nth_error (s_elems st) i = Some e /\ e_path e = None.

(** The face of the node lies in the boundary of the tree. *)
Definition at_boundary (x : tree) (d : nat) (s : bool) : Prop := if s then (hi x d == 1)%Q else (lo x d == 0)%Q.

(** [y] is number [k], in row-major order, of the nodes one level finer than [x] at its face in dimension [d]. *)
Definition row_major (n d : nat) (x y : tree) (k : nat) : Prop :=
  t_level y = S (t_level x) /\
  forall i, i < n -> i <> d -> coord y i = (2 * coord x i + Z.b2z (Nat.testbit k (n - 2 - (if Nat.ltb i d then i else i - 1))))%Z.

(** What a connection must be:
    - conformal: between elements of nodes of one size that share the face;
    - refined: between the element of a node and those of all the leaves at its face, which are one level finer, in
      row-major order;
    - to the boundary: at the boundary of the tree;
    - between an element and one extruded from it: at a face with no element behind it (or between extruded elements);
    - others only between extruded elements.
    The ones between deformed elements only are stored as deformed, and Cartesian ones go from the lower to the upper element. *)
Definition right (n : nat) (st : state) (l : link) : Prop :=
  match l with
  | Conf b i j d s => d < n /\ exists p x q y, on_leaf st i p x /\ on_leaf st j q y /\ t_level y = t_level x /\
      share_face n d (sgn s) x y /\ (b = true <-> deformed st i /\ deformed st j) /\ (b = false -> s = true)
  | Refd b c fs d s => d < n /\ exists p x, on_leaf st c p x /\ length fs = 2 ^ (n - 1) /\
      (forall k f, nth_error fs k = Some f -> exists q y, on_leaf st f q y /\ share_face n d (sgn s) x y /\ row_major n d x y k) /\
      (forall q y, leaf_at (s_tree st) q y -> share_face n d (sgn s) x y -> exists f, In f fs /\ lives st f q) /\
      (b = true <-> deformed st c /\ forall f, In f fs -> deformed st f)
  | Bnd e d s => d < n /\ exists p x, on_leaf st e p x /\ at_boundary x d s
  | Ext i o d s => d < n /\ is_extruded st o /\
      ((exists p x, on_leaf st i p x /\ ~ covered_face n st x d (sgn s)) \/ is_extruded st i)
  | Side fs => forall f, In f fs -> is_extruded st (fst (fst f))
  end.

(** A connection of the face exists. *)
Definition connected (js : joined) (f : face) : Prop := exists l, In l (j_links js) /\ In f (uses l).

(** All connections are right, no face has more than one, and the faces know whether they have one. *)
Record well_joined (n : nat) (js : joined) : Prop := {
  wj_right : forall l, In l (j_links js) -> right n (j_st js) l;
  wj_once : NoDup (flat_map uses (j_links js));
  wj_flags : forall f, j_face js f = true <-> connected js f
}.

(** A face of an element of the tree is connected to other elements of the tree, or to the boundary, wherever these are. *)
Definition all_joined (n : nat) (js : joined) : Prop :=
  forall i p x d s, on_leaf (j_st js) i p x -> d < n -> covered_face n (j_st js) x d (sgn s) -> connected js (i, d, s).

(** Every face of every element has a connection. *)
Definition no_gap (n : nat) (js : joined) : Prop :=
  forall i d s, i < length (s_elems (j_st js)) -> d < n -> connected js (i, d, s).

(** The connections between the elements and those extruded from them are in the list of such connections. *)
Definition listed (js : joined) : Prop := forall i o d s, In (Ext i o d s) (j_links js) -> In (Ext i o d s) (j_extr js).
(** That list contains only such connections, and no pointers to ones that were destroyed. *)
Definition no_dangling (js : joined) : Prop := forall l, In l (j_extr js) -> In l (j_links js) /\ exists i o d s, l = Ext i o d s.

(** Elements are extruded only from elements of the tree: there is one layer. *)
Definition one_layer (js : joined) : Prop := forall i o d s, In (Ext i o d s) (j_links js) -> exists p x, on_leaf (j_st js) i p x.

(** Every extruded element is connected with the element it was extruded from. *)
Definition rooted (js : joined) : Prop := forall o, is_extruded (j_st js) o -> exists i d s, In (Ext i o d s) (j_links js).

(** An element with a face that has no elements behind it is deformed. *)
Definition exposed_deformed (n : nat) (st : state) : Prop :=
  forall i p x d s, on_leaf st i p x -> d < n -> ~ covered_face n st x d (sgn s) -> deformed st i.

(** Everything an update may rely on. *)
Record sound (n : nat) (js : joined) : Prop := {
  so_settled : settled n (j_st js);
  so_linked : linked (j_st js);
  so_balanced : balanced n (j_st js);
  so_records : forall i e, nth_error (s_elems (j_st js)) i = Some e -> e_record e = 0%Z;
  so_joined : well_joined n js;
  so_all : all_joined n js;
  so_listed : listed js;
  so_dangling : no_dangling js
}.
