(** Property theorems: C08 (point location), C09 (neighbours), C10 (bookkeeping), C11 (flood fill), C12 (file table). *)
From Coq Require Import ZArith QArith List Bool Arith Lia.
From Verif Require Import Outcome Tree_Model Tree_Spec Tree_Proofs Tree_Neighbors Tree_Flood.
Import ListNotations.
Local Open Scope nat_scope.

(** A quadtree (2D) with two levels: the root refined and its child 2 (x high, y low) refined again. *)
Definition example_ops : list tree_op := [Refine []; Refine [2]; Set_status [0] 7; Set_elem [2; 1] (Some 4%Z)].
Definition example_tree : tree :=
  match tree_run 2 (new_tree 2) example_ops with Ok t => t | _ => new_tree 2 end.
Example example_reachable : reachable 2 example_tree.
Proof. exists example_ops. reflexivity. Qed.

(** C10. In every tree a user can make, every node is a leaf or has 2^n children, one level finer, covering the parts of
    its box in row-major order. *)
Theorem tree_structure : forall n t, reachable n t -> proper n t.
Proof. exact reachable_proper. Qed.
Print Assumptions tree_structure.

(** C10. The half-open box of a non-leaf is the disjoint union of the half-open boxes of its children. *)
Theorem tree_children_partition : forall n t p x (pos : nat -> Q),
  reachable n t -> subtree t p = Some x -> t_children x <> [] ->
  (in_half_open_box n x pos <->
   exists k ch, nth_error (t_children x) k = Some ch /\ in_half_open_box n ch pos) /\
  forall k ch k' ch', nth_error (t_children x) k = Some ch -> nth_error (t_children x) k' = Some ch' ->
   in_half_open_box n ch pos -> in_half_open_box n ch' pos -> k = k'.
Proof. exact children_partition. Qed.
Print Assumptions tree_children_partition.

(** C10. [count] is the number of nodes. *)
Theorem tree_count : forall t, exists l, NoDup l /\ (forall p, In p l <-> node_at t p) /\ count t = length l.
Proof. exact count_correct. Qed.
Print Assumptions tree_count.

(** C10. Refining a leaf and unrefining it again restores the tree. *)
Theorem tree_refine_unrefine : forall n t p x, leaf_at t p x -> tree_run n t [Refine p; Unrefine p] = Ok t.
Proof. exact refine_unrefine. Qed.
Print Assumptions tree_refine_unrefine.

(** C10. Refining a non-leaf throws; unrefining a leaf changes nothing. *)
Theorem tree_refine_nonleaf : forall n t p x, subtree t p = Some x -> t_children x <> [] -> tree_step n t (Refine p) = Throw.
Proof. exact refine_nonleaf. Qed.
Print Assumptions tree_refine_nonleaf.
Theorem tree_unrefine_leaf : forall n t p x, leaf_at t p x -> tree_step n t (Unrefine p) = Ok t.
Proof. exact unrefine_leaf. Qed.
Print Assumptions tree_unrefine_leaf.

Example example_structure :
  map (fun px => (fst px, t_level (snd px), t_coords (snd px))) (leaves example_tree) =
  [([0], 1, [0; 0]%Z); ([1], 1, [0; 1]%Z); ([2; 0], 2, [2; 0]%Z); ([2; 1], 2, [2; 1]%Z); ([2; 2], 2, [3; 0]%Z); ([2; 3], 2, [3; 1]%Z); ([3], 1, [1; 1]%Z)]
  /\ count example_tree = 9.
Proof. split; reflexivity. Qed.

(** C08. Integer point location: [find_leaf] from any node of any tree returns the unique leaf below the node whose box
    contains the point (with the documented bias rule for points on faces), null exactly when the node does not contain it. *)
Theorem tree_find_leaf : forall n t p0 x0 rl c bias,
  reachable n t -> subtree t p0 = Some x0 -> n <= length c -> n <= length bias ->
  (forall i, i < n -> nth i bias 0%Z = 0%Z \/ nth i bias 0%Z = 1%Z) ->
  exists r, find_leaf n rl c bias x0 = Ok r /\
  match r with
  | Some p => exists x, leaf_at x0 p x /\ contains_biased n rl c bias x /\
                        forall q y, leaf_at x0 q y -> contains_biased n rl c bias y -> q = p
  | None => ~ contains_biased n rl c bias x0
  end.
Proof. exact find_leaf_correct. Qed.
Print Assumptions tree_find_leaf.

(** C08. Too short arguments are reported. *)
Theorem tree_find_leaf_throws : forall n rl c bias x0, length c < n \/ length bias < n -> find_leaf n rl c bias x0 = Throw.
Proof. exact find_leaf_throws. Qed.
Print Assumptions tree_find_leaf_throws.

(** C08. Physical point location: the leaf returned contains the point in its closed box; null exactly when the point is
    outside the closed box of the node. *)
Theorem tree_find_leaf_pos : forall n t p0 x0 root_sz orig pos,
  reachable n t -> subtree t p0 = Some x0 -> (0 < root_sz)%Q ->
  match find_leaf_pos n root_sz orig pos x0 with
  | Some p => exists x, leaf_at x0 p x /\ in_closed_box n root_sz orig x pos
  | None => ~ in_closed_box n root_sz orig x0 pos
  end.
Proof. exact find_leaf_pos_correct. Qed.
Print Assumptions tree_find_leaf_pos.

(** The point (6/8, 2/8) is a corner of four leaves; the bias picks one of them. (8/8, 2/8) is outside unless biased. *)
Example example_find_leaf :
  find_leaf 2 3 [6; 2]%Z [0; 0]%Z example_tree = Ok (Some [2; 3]) /\
  find_leaf 2 3 [6; 2]%Z [1; 0]%Z example_tree = Ok (Some [2; 1]) /\
  find_leaf 2 3 [6; 2]%Z [1; 1]%Z example_tree = Ok (Some [2; 0]) /\
  find_leaf 2 3 [8; 2]%Z [0; 0]%Z example_tree = Ok None /\
  find_leaf 2 3 [8; 2]%Z [1; 0]%Z example_tree = Ok (Some [2; 3]) /\
  find_leaf_pos 2 10 (fun _ => -(5 # 1))%Q (fun i => if i =? 0 then 4 else -(1))%Q example_tree = Some [2; 3] /\
  find_leaf_pos 2 10 (fun _ => -(5 # 1))%Q (fun i => if i =? 0 then 6 else 0)%Q example_tree = None.
Proof. repeat split. Qed.

(** C09. For any node and any direction vector, [find_neighbors] returns exactly the leaves lying immediately next to the
    node in that direction, each once, and [find_neighbor] the first of them (null if there are none). *)
Theorem tree_find_neighbors : forall n t p x dir,
  reachable n t -> subtree t p = Some x -> n <= length dir ->
  exists l, find_neighbors n t p dir = Ok l /\ find_neighbor n t p dir = Ok (hd_error l) /\ NoDup l /\
            forall q, In q l <-> exists y, leaf_at t q y /\ touches n dir x y.
Proof. exact find_neighbors_correct. Qed.
Print Assumptions tree_find_neighbors.

(** C09. For a leaf and a face direction these are exactly the leaves sharing a face of positive area. *)
Theorem tree_face_neighbors : forall n t p x d sign,
  reachable n t -> leaf_at t p x -> d < n -> sign = 1%Z \/ sign = (-1)%Z ->
  exists l, find_neighbors n t p (direct n d sign) = Ok l /\ NoDup l /\
            forall q, In q l <-> exists y, leaf_at t q y /\ share_face n d sign x y.
Proof. exact find_neighbors_leaf. Qed.
Print Assumptions tree_face_neighbors.

Example example_neighbors :
  find_neighbors 2 example_tree [0] [1; 0]%Z = Ok [[2; 0]; [2; 1]] /\
  find_neighbor 2 example_tree [0] [1; 0]%Z = Ok (Some [2; 0]) /\
  find_neighbors 2 example_tree [2; 1] [0; 1]%Z = Ok [[3]] /\
  find_neighbors 2 example_tree [1] [1; -1]%Z = Ok [[2; 1]] /\
  find_neighbors 2 example_tree [1] [-1; 0]%Z = Ok [].
Proof. repeat split. Qed.

(** C11. [flood_fill] on a leaf terminates and gives the new status to exactly the leaves reached through unprocessed
    leaves sharing faces; nothing else in the tree changes. *)
Theorem tree_flood_fill : forall n t start x s,
  reachable n t -> leaf_at t start x -> s <> unprocessed ->
  exists fuel0 t', (forall fuel, fuel0 <= fuel -> flood_fill fuel n t start s = Ok t') /\
    forget_status t' = forget_status t /\
    forall q y, subtree t q = Some y -> exists y', subtree t' q = Some y' /\
      (flooded n t start q -> t_status y' = s) /\ (~ flooded n t start q -> t_status y' = t_status y).
Proof. exact flood_fill_correct. Qed.
Print Assumptions tree_flood_fill.

(** C11. Filling with [unprocessed] is reported. *)
Theorem tree_flood_fill_throws : forall fuel n t p, 0 < fuel -> flood_fill fuel n t p unprocessed = Throw.
Proof. exact flood_fill_throws. Qed.
Print Assumptions tree_flood_fill_throws.

(** C44. The documentation (include/Tree.hpp:185-186) says that on a non-leaf the flood fill instead starts on the leaf
    descendant with the smallest coordinates. That is false: the loop also runs from the non-leaf itself, which floods
    its neighbours even when that leaf is already processed. *)
Definition documented_nonleaf_start : Prop :=
  forall n t p x fuel s t', reachable n t -> subtree t p = Some x -> t_children x <> [] -> s <> unprocessed ->
    flood_fill fuel n t p s = Ok t' ->
    exists start, leaf_at t (p ++ start) (match subtree t (p ++ start) with Some y => y | None => x end) /\ Forall (eq 0) start /\
      forall q y y', leaf_at t q y -> leaf_at t' q y' -> ~ flooded n t (p ++ start) q -> t_status y' = t_status y.
Theorem tree_flood_fill_nonleaf_refuted : ~ documented_nonleaf_start.
Proof.
  intros H.
  specialize (H 1 (match tree_run 1 (new_tree 1) [Refine []; Refine [0]; Set_status [0; 0] 5] with Ok t => t | _ => new_tree 1 end)
                [0] (Node 1 [0%Z] (-1)%Z None [Node 2 [0%Z] 5%Z None []; Node 2 [1%Z] (-1)%Z None []]) 20 1%Z).
  edestruct H as (start & [L1 L2] & Z0 & K).
  - exists [Refine []; Refine [0]; Set_status [0; 0] 5]. reflexivity.
  - reflexivity.
  - discriminate.
  - discriminate.
  - vm_compute. reflexivity.
  - assert (start = [0]) as ->.
    { destruct start as [|a start]; [cbn in L2; discriminate|]. inversion Z0; subst. destruct start as [|b start]; [reflexivity|].
      inversion H3; subst. cbn in L1. destruct start; discriminate. }
    specialize (K [1] (Node 1 [1%Z] (-1)%Z None []) (Node 1 [1%Z] 1%Z None [])).
    cbn [t_status] in K. assert (1%Z = (-1)%Z); [|discriminate]. apply K.
    + split; reflexivity.
    + split; reflexivity.
    + intros F.
      assert (G : forall q, ~ flooded 1 (match tree_run 1 (new_tree 1) [Refine []; Refine [0]; Set_status [0; 0] 5] with Ok t => t | _ => new_tree 1 end) ([0] ++ [0]) q).
      { intros q FL. induction FL as [x [E _] U|]; [|assumption]. cbn in E. inversion E; subst. discriminate. }
      exact (G _ F).
Qed.
Print Assumptions tree_flood_fill_nonleaf_refuted.

(** C44, the part that does hold: a call on any node terminates, changes nothing but statuses, only ever sets the new
    status, and the region connected to the smallest leaf descendant is filled. Missing: other leaves may be filled too. *)
Theorem tree_flood_fill_nonleaf_partial : forall n t p x s,
  reachable n t -> subtree t p = Some x -> s <> unprocessed ->
  exists fuel0 t', (forall fuel, fuel0 <= fuel -> flood_fill fuel n t p s = Ok t') /\
    forget_status t' = forget_status t /\
    (forall q y, subtree t q = Some y -> exists y', subtree t' q = Some y' /\ (t_status y' = t_status y \/ t_status y' = s)) /\
    exists start y, Forall (eq 0) start /\ leaf_at t (p ++ start) y /\
      forall q, flooded n t (p ++ start) q -> exists z, subtree t' q = Some z /\ t_status z = s.
Proof. exact flood_fill_nonleaf. Qed.
Print Assumptions tree_flood_fill_nonleaf_partial.

Example example_flood :
  match flood_fill 100 2 example_tree [2; 1] 3 with
  | Ok t => map (fun px => (fst px, t_status (snd px))) (leaves t) =
            [([0], 7%Z); ([1], 3%Z); ([2; 0], 3%Z); ([2; 1], 3%Z); ([2; 2], 3%Z); ([2; 3], 3%Z); ([3], 3%Z)]
  | _ => False
  end.
Proof. reflexivity. Qed.

(** C12. Writing a tree to the table of a mesh file and reading it back gives the same tree: shape, statuses and element
    numbers of all nodes. The table has exactly one row per node, numbered from 0. *)
Theorem tree_file_round_trip : forall n t,
  reachable n t -> (forall p x e, subtree t p = Some x -> t_elem x = Some e -> (0 <= e)%Z) ->
  exists tb fuel0, write_tree (2 ^ n) t 0 [] = (0, count t, tb) /\
    (forall r, (exists d, read_row tb r = Ok d) <-> r < count t) /\
    forall fuel, fuel0 <= fuel -> read_tree fuel n tb (new_tree n) 0 = Ok t.
Proof. exact tree_table_round_trip. Qed.
Print Assumptions tree_file_round_trip.

Example example_file :
  let '(_, rows, tb) := write_tree 4 example_tree 0 [] in
  rows = 9 /\ read_row tb 3 = Ok [-1; -1; 4; 5; 6; 7]%Z /\ read_tree 4 2 tb (new_tree 2) 0 = Ok example_tree.
Proof. repeat split. Qed.
