(** Specification vocabulary for trees, independent of the algorithms in Tree_Model. *)
From Coq Require Import ZArith QArith List Bool Arith.
From Verif Require Import Outcome Tree_Model.
Import ListNotations.
Local Open Scope nat_scope.

(** Trees a user can obtain: any history of calls starting from a new tree of [n] dimensions. *)
Definition reachable (n : nat) (t : tree) : Prop := exists ops, tree_run n (new_tree n) ops = Ok t.

(** The rational number c / 2^l. *)
Definition frac (c : Z) (l : nat) : Q := Qmake c (Z.to_pos (2 ^ Z.of_nat l)).

(** The box of a node in units where the root is the unit box: [lo, hi] in each dimension. *)
Definition lo (x : tree) (i : nat) : Q := frac (coord x i) (t_level x).
Definition hi (x : tree) (i : nat) : Q := frac (coord x i + 1) (t_level x).

(** The leaves of a tree with their paths, in depth-first row-major order. *)
Fixpoint leaves (t : tree) : list (path * tree) :=
  match t with
  | Node _ _ _ _ [] => [([], t)]
  | Node _ _ _ _ cs =>
      (fix loop (i : nat) (cs : list tree) : list (path * tree) :=
         match cs with
         | [] => []
         | c :: cs' => map (fun px => (i :: fst px, snd px)) (leaves c) ++ loop (S i) cs'
         end) 0 cs
  end.

(** [p] is the path of a leaf [x] of [t]. *)
Definition leaf_at (t : tree) (p : path) (x : tree) : Prop := subtree t p = Some x /\ t_children x = [].

(** "If bias is 0 the point may lie on the lower face but not the upper, if it is 1 on the upper but not the lower"
    (include/Tree.hpp:114-116). *)
Definition biased_in (b : Z) (x l h : Q) : Prop :=
  if (b =? 0)%Z then (l <= x /\ x < h)%Q else (l < x /\ x <= h)%Q.

(** Node [x] contains the point with coordinates [c] at refinement level [rl]. *)
Definition contains_biased (n rl : nat) (c bias : list Z) (x : tree) : Prop :=
  forall i, i < n -> biased_in (nth i bias 0%Z) (frac (nth i c 0%Z) rl) (lo x i) (hi x i).

(** Node [y] lies immediately next to node [x] in the given direction: in each dimension with zero direction their
    open intervals overlap; in a dimension with positive (negative) direction [y] contains the points immediately above
    the upper (below the lower) face of [x]. *)
Definition touches (n : nat) (direction : list Z) (x y : tree) : Prop :=
  forall i, i < n ->
    (nth i direction 0%Z = 0%Z -> (lo y i < hi x i)%Q /\ (lo x i < hi y i)%Q) /\
    ((0 < nth i direction 0)%Z -> (lo y i <= hi x i)%Q /\ (hi x i < hi y i)%Q) /\
    ((nth i direction 0 < 0)%Z -> (lo y i < lo x i)%Q /\ (lo x i <= hi y i)%Q).

(** Boxes [x] and [y] share a face of positive area normal to dimension [d], [y] being on the positive ([sign] = 1) or
    negative ([sign] = -1) side. *)
Definition share_face (n d : nat) (sign : Z) (x y : tree) : Prop :=
  (if (0 <? sign)%Z then lo y d == hi x d else hi y d == lo x d)%Q /\
  forall i, i < n -> i <> d -> (lo y i < hi x i)%Q /\ (lo x i < hi y i)%Q.

(** Closed physical box of a node. *)
Definition in_closed_box (n : nat) (root_sz : Q) (orig : nat -> Q) (x : tree) (pos : nat -> Q) : Prop :=
  forall i, i < n -> (orig i + root_sz * lo x i <= pos i)%Q /\ (pos i <= orig i + root_sz * hi x i)%Q.

(** Structure of a correct tree of [n] dimensions: every node is a leaf or has 2^n children one level finer, the [k]th
    of which covers the part of the node given by the binary digits of [k], most significant digit first. *)
Definition proper (n : nat) (t : tree) : Prop :=
  t_level t = 0 /\ (forall i, coord t i = 0%Z) /\
  forall p x, subtree t p = Some x ->
    length (t_coords x) = n /\ t_level x = length p /\
    (t_children x = [] \/
     length (t_children x) = 2 ^ n /\
     forall k child, nth_error (t_children x) k = Some child ->
       t_level child = S (t_level x) /\
       forall i, i < n -> coord child i = (2 * coord x i + Z.b2z (Nat.testbit k (n - 1 - i)))%Z).

(** Same shape (levels, coordinates, children) and elements; only the statuses may differ. *)
Fixpoint forget_status (t : tree) : tree :=
  match t with Node l c s e cs => Node l c unprocessed e (map forget_status cs) end.

(** Leaves reached by flooding from a leaf: the start if it is unprocessed, and every unprocessed leaf that shares a
    face with a reached one. *)
Inductive flooded (n : nat) (t : tree) (start : path) : path -> Prop :=
| flooded_start x :
    leaf_at t start x -> t_status x = unprocessed -> flooded n t start start
| flooded_step p x q y d sign :
    flooded n t start p -> leaf_at t p x -> leaf_at t q y ->
    d < n -> sign = 1%Z \/ sign = (-1)%Z -> share_face n d sign x y ->
    t_status y = unprocessed -> flooded n t start q.

(** All nodes (paths) of a tree. *)
Definition node_at (t : tree) (p : path) : Prop := exists x, subtree t p = Some x.

(** A point in the half-open box of a node (units of the root box). *)
Definition in_half_open_box (n : nat) (x : tree) (pos : nat -> Q) : Prop :=
  forall i, i < n -> (lo x i <= pos i /\ pos i < hi x i)%Q.
