(** Model of the bin/quad/octree [Tree] (include/Tree.hpp, src/Tree.cpp).

    Simplifications common to the whole file:
    - A [Tree*] is modelled by the path (list of child indices) from the root; [parent()] is the path without its last
      entry and [root()] the empty path. The raw [par] pointer (include/Tree.hpp:42) is set only by [refine]
      (src/Tree.cpp:62) to the node that owns the child, so this loses nothing as long as nodes are only created by
      [refine] (the constructor at src/Tree.cpp:19 makes a root).
    - [int] is unbounded [Z] (no overflow; coordinates of a tree of depth 30 still fit in 32 bits).
    - [double] positions are rationals [Q] computed exactly.
    - [misc_data] and [def_elem] are not modelled; [elem] is an optional element number. *)
From Coq Require Import ZArith QArith List Bool Arith.
From Verif Require Import Outcome.
Import ListNotations.
Local Open Scope nat_scope.

(** include/Tree.hpp:38-44, 62: the fields of one node, [n_dim], [orig], [root_sz] being the same for the whole tree
    (copied at src/Tree.cpp:60). *)
Inductive tree : Type :=
| Node (ref_level : nat) (coords : list Z) (status : Z) (elem : option Z) (children : list tree).

(** src/Tree.cpp:31 *)
Definition t_level (t : tree) : nat := let (l, _, _, _, _) := t in l.
(** src/Tree.cpp:32 *)
Definition t_coords (t : tree) : list Z := let (_, c, _, _, _) := t in c.
(** src/Tree.cpp:148-151 *)
Definition t_status (t : tree) : Z := let (_, _, s, _, _) := t in s.
(** include/Tree.hpp:62 *)
Definition t_elem (t : tree) : option Z := let (_, _, _, e, _) := t in e.
(** src/Tree.cpp:39-44 *)
Definition t_children (t : tree) : list tree := let (_, _, _, _, ch) := t in ch.
(** src/Tree.cpp:54 *)
Definition is_leaf (t : tree) : bool := match t_children t with [] => true | _ => false end.

(** A [Tree*]: path from the root (see the file comment; include/Tree.hpp:42-43). *)
Definition path := list nat.

(** Dereferencing a [Tree*] (include/Tree.hpp:43). [None]: dangling pointer. *)
Fixpoint subtree (t : tree) (p : path) : option tree :=
  match p with
  | [] => Some t
  | i :: p' => match nth_error (t_children t) i with
               | Some ch => subtree ch p'
               | None => None
               end
  end.

(** Apply [f] to entry [i] of a list (helper for modification through a pointer, include/Tree.hpp:43). *)
Fixpoint update_nth {A : Type} (i : nat) (f : A -> A) (l : list A) : list A :=
  match l, i with
  | [], _ => []
  | x :: l', O => f x :: l'
  | x :: l', S i' => x :: update_nth i' f l'
  end.

(** Modify the node a [Tree*] points to (include/Tree.hpp:43). *)
Fixpoint update (p : path) (f : tree -> tree) (t : tree) : tree :=
  match p with
  | [] => f t
  | i :: p' => let (l, c, s, e, ch) := t in Node l c s e (update_nth i (update p' f) ch)
  end.

(** include/Tree.hpp:176 *)
Definition unprocessed : Z := (-1)%Z.

(** src/Tree.cpp:19-28: the root of a new tree *)
Definition new_tree (n : nat) : tree := Node 0 (repeat 0%Z n) unprocessed None [].

(** [coords(i_dim)]: in range because [coords] always has [n_dim] entries (src/Tree.cpp:20); proved as part of the
    invariant. *)
Definition coord (t : tree) (i_dim : nat) : Z := nth i_dim (t_coords t) 0%Z.

(** src/Tree.cpp:64-67: coordinates of child number [i_child] *)
Definition child_coords (n : nat) (coords : list Z) (i_child : nat) : list Z :=
  map (fun i_dim => (2 * nth i_dim coords 0 + Z.of_nat (i_child / 2 ^ (n - 1 - i_dim) mod 2))%Z) (seq 0 n).

(** src/Tree.cpp:59-68: the children made by [refine] *)
Definition make_children (n : nat) (level : nat) (coords : list Z) : list tree :=
  map (fun i_child => Node (S level) (child_coords n coords i_child) unprocessed None []) (seq 0 (2 ^ n)).

(** src/Tree.cpp:56-69 [refine] on the node itself *)
Definition refine_node (n : nat) (t : tree) : tree :=
  let (l, c, s, e, ch) := t in Node l c s e (make_children n l c).

(** src/Tree.cpp:71 [unrefine] on the node itself *)
Definition unrefine_node (t : tree) : tree := let (l, c, s, e, ch) := t in Node l c s e [].

(** src/Tree.cpp:153-156 [set_status] on the node itself *)
Definition set_status_node (new_status : Z) (t : tree) : tree := let (l, c, s, e, ch) := t in Node l c new_status e ch.

(** pairing [elem] (include/Tree.hpp:62) with element number [e'] (or none), on the node itself *)
Definition set_elem_node (e' : option Z) (t : tree) : tree := let (l, c, s, e, ch) := t in Node l c s e' ch.

(** src/Tree.cpp:187-191 [clear_status] on the node itself *)
Fixpoint clear_status_node (t : tree) : tree :=
  match t with
  | Node l c s e ch => Node l c unprocessed e (map clear_status_node ch)
  end.

(** src/Tree.cpp:33 [nominal_size] *)
Definition nominal_size (root_sz : Q) (t : tree) : Q := (root_sz / inject_Z (2 ^ Z.of_nat (t_level t)))%Q.

(** src/Tree.cpp:34 [nominal_position], component [i_dim] *)
Definition nominal_position (root_sz : Q) (orig : nat -> Q) (t : tree) (i_dim : nat) : Q :=
  (nominal_size root_sz t * inject_Z (coord t i_dim) + orig i_dim)%Q.

(** src/Tree.cpp:35 [center], component [i_dim] *)
Definition center (root_sz : Q) (orig : nat -> Q) (t : tree) (i_dim : nat) : Q :=
  (nominal_position root_sz orig t i_dim + (1 # 2) * nominal_size root_sz t)%Q.

(** src/Tree.cpp:87-90, 103-106: search the children in order with [search]; the result is a path relative to the node
    that owns the children *)
Definition first_found (search : tree -> option path) : nat -> list tree -> option path :=
  fix loop (i : nat) (cs : list tree) : option path :=
    match cs with
    | [] => None
    | ch :: cs' => match search ch with
                   | Some p => Some (i :: p)
                   | None => loop (S i) cs'
                   end
    end.

(** src/Tree.cpp:79-85: the test for one dimension of whether the coordinates are outside the node *)
Definition outside_dim (level rl : nat) (c b coord_ : Z) : bool :=
  let max_level := Nat.max level rl in
  let cell_size := (2 ^ Z.of_nat (max_level - level))%Z in
  let relative_coord := (c * 2 ^ Z.of_nat (max_level - rl) - b - coord_ * cell_size)%Z in
  ((relative_coord <? 0) || (cell_size <=? relative_coord))%Z.

(** src/Tree.cpp:83-85 *)
Definition outside (n : nat) (rl : nat) (c bias : list Z) (t : tree) : bool :=
  existsb (fun i_dim => outside_dim (t_level t) rl (nth i_dim c 0%Z) (nth i_dim bias 0%Z) (coord t i_dim)) (seq 0 n).

(** src/Tree.cpp:73-93 [find_leaf(int, VectorXi, VectorXi)] after the size checks; [None] is [nullptr]. *)
Fixpoint find_leaf_int (n : nat) (rl : nat) (c bias : list Z) (t : tree) {struct t} : option path :=
  if outside n rl c bias t then None
  else match t with
       | Node _ _ _ _ children =>
           match first_found (find_leaf_int n rl c bias) 0 children with
           | Some p => Some p
           | None => Some []
           end
       end.

(** src/Tree.cpp:73-93 with the argument checks of lines 75-78 *)
Definition find_leaf (n : nat) (rl : nat) (c bias : list Z) (t : tree) : outcome (option path) :=
  if (length c <? n) then Throw
  else if (length bias <? n) then Throw
  else Ok (find_leaf_int n rl (firstn n c) (firstn n bias) t).

(** strict order on rationals as a boolean (comparison of doubles, src/Tree.cpp:101) *)
Definition Qltb (a b : Q) : bool := negb (Qle_bool b a).

(** src/Tree.cpp:100-102: is the physical point outside the (closed) box of the node *)
Definition outside_pos (n : nat) (root_sz : Q) (orig : nat -> Q) (nom_pos : nat -> Q) (t : tree) : bool :=
  existsb (fun i_dim =>
    Qltb (nom_pos i_dim) (nominal_position root_sz orig t i_dim) ||
    Qltb (nominal_position root_sz orig t i_dim + nominal_size root_sz t) (nom_pos i_dim)) (seq 0 n).

(** src/Tree.cpp:95-108 [find_leaf(Mat<>)]; the size check (line 97) is left out because positions are functions of the
    dimension index. *)
Fixpoint find_leaf_pos (n : nat) (root_sz : Q) (orig nom_pos : nat -> Q) (t : tree) {struct t} : option path :=
  if outside_pos n root_sz orig nom_pos t then None
  else match t with
       | Node _ _ _ _ children =>
           match first_found (find_leaf_pos n root_sz orig nom_pos) 0 children with
           | Some p => Some p
           | None => Some []
           end
       end.

(** src/Tree.cpp:110-122 [find_neighbor] of the node at path [p] of the tree with root [t]; [direction] must have (at
    least) [n_dim] entries (line 112). *)
Definition find_neighbor (n : nat) (t : tree) (p : path) (direction : list Z) : outcome (option path) :=
  if (length direction <? n) then Throw
  else
    let! x := of_option_ub (subtree t p) in
    let c := map (fun i_dim => (coord x i_dim + if (0 <? nth i_dim direction 0)%Z then 1 else 0)%Z) (seq 0 n) in
    let bias := map (fun i_dim => if (nth i_dim direction 0 <? 0)%Z then 1%Z else 0%Z) (seq 0 n) in
    find_leaf n (t_level x) c bias t.

(** src/Tree.cpp:7-17 [add_extremal_leves]: the (relative) paths added, in order. [%] of a nonnegative [int]. *)
Fixpoint extremal_leaves (n : nat) (bias : list Z) (t : tree) {struct t} : list path :=
  match t with
  | Node _ _ _ _ [] => [[]]
  | Node _ _ _ _ children =>
      (fix loop (i : nat) (cs : list tree) : list path :=
         match cs with
         | [] => []
         | child :: cs' =>
             (if forallb (fun i_dim =>
                   (nth i_dim bias 0 =? -1)%Z || (nth i_dim bias 0 =? Z.rem (coord child i_dim) 2)%Z) (seq 0 n)
              then map (cons i) (extremal_leaves n bias child) else [])
             ++ loop (S i) cs'
         end) 0 children
  end.

(** src/Tree.cpp:132: go to the parent while the refinement level is greater than [level]. [k] bounds the number of
    iterations; the length of the path suffices because the root has level 0. Parent of the root: undefined. *)
Fixpoint ascend (k : nat) (t : tree) (level : nat) (q : path) : outcome path :=
  let! x := of_option_ub (subtree t q) in
  if (level <? t_level x) then
    match k with
    | O => NoFuel
    | S k' => match q with
              | [] => Ub
              | _ => ascend k' t level (removelast q)
              end
    end
  else Ok q.

(** src/Tree.cpp:124-139 [find_neighbors] of the node at path [p] *)
Definition find_neighbors (n : nat) (t : tree) (p : path) (direction : list Z) : outcome (list path) :=
  let! main := find_neighbor n t p direction in
  match main with
  | None => Ok []
  | Some q =>
      let! x := of_option_ub (subtree t p) in
      let! m := ascend (length q) t (t_level x) q in
      let! y := of_option_ub (subtree t m) in
      let bias := map (fun i_dim => let d := nth i_dim direction 0%Z in
                        if (d =? 0)%Z then (-1)%Z else if (d <? 0)%Z then 1%Z else 0%Z) (seq 0 n) in
      Ok (map (fun r => m ++ r) (extremal_leaves n bias y))
  end.

(** src/Tree.cpp:141-146 [count] *)
Fixpoint count (t : tree) : nat :=
  match t with
  | Node _ _ _ _ children => fold_left (fun total child => total + count child) children 1
  end.

(** src/Tree.cpp:175-177: the unit vector with [sign] in dimension [i_dim] *)
Definition direct (n : nat) (i_dim : nat) (sign : Z) : list Z :=
  map (fun j => if j =? i_dim then sign else 0%Z) (seq 0 n).

(** src/Tree.cpp:173-182: append to the queue all the neighbours found for the directions in [dirs] *)
Fixpoint push_neighbors (n : nat) (t : tree) (p : path) (dirs : list (list Z)) (queue : list path) : outcome (list path) :=
  match dirs with
  | [] => Ok queue
  | d :: dirs' =>
      let! nb := find_neighbors n t p d in
      push_neighbors n t p dirs' (queue ++ nb)
  end.

(** src/Tree.cpp:173-174: the directions in loop order *)
Definition face_directions (n : nat) : list (list Z) :=
  flat_map (fun i_dim => [direct n i_dim (-1); direct n i_dim 1]) (seq 0 n).

(** src/Tree.cpp:164-184: the queue loop of [flood_fill] *)
Fixpoint flood_loop (fuel : nat) (n : nat) (new_status : Z) (t : tree) (to_process : list path) : outcome tree :=
  match to_process with
  | [] => Ok t
  | p :: rest =>
      match fuel with
      | O => NoFuel
      | S fuel' =>
          let! x := of_option_ub (subtree t p) in
          if (t_status x =? unprocessed)%Z then
            let t' := update p (set_status_node new_status) t in
            let! queue := push_neighbors n t' p (face_directions n) rest in
            flood_loop fuel' n new_status t' queue
          else flood_loop fuel' n new_status t rest
      end
  end.

(** src/Tree.cpp:158-185 [flood_fill] on the node at path [p]. Line 161 recurses into child 0 while the node is not a
    leaf (the recursion depth is bounded by [fuel]); afterwards the loop also runs from the node itself. *)
Fixpoint flood_fill (fuel : nat) (n : nat) (t : tree) (p : path) (new_status : Z) : outcome tree :=
  match fuel with
  | O => NoFuel
  | S fuel' =>
      if (new_status =? unprocessed)%Z then Throw
      else
        let! x := of_option_ub (subtree t p) in
        let! t1 := (if negb (is_leaf x) then flood_fill fuel' n t (p ++ [O]) new_status else Ok t) in
        flood_loop fuel n new_status t1 [p]
  end.

(** The operations that change a tree, as calls on the node at a path (src/Tree.cpp:56, 71, 153, 158, 187;
    include/Tree.hpp:62). *)
Inductive tree_op : Type :=
| Refine (p : path)
| Unrefine (p : path)
| Set_status (p : path) (s : Z)
| Set_elem (p : path) (e : option Z)
| Clear_status (p : path)
| Flood_fill (fuel : nat) (p : path) (s : Z).

(** One call; calling through a dangling pointer is undefined behaviour (src/Tree.cpp:56-71, 153-156, 158-191). *)
Definition tree_step (n : nat) (t : tree) (op : tree_op) : outcome tree :=
  match op with
  | Refine p =>
      let! x := of_option_ub (subtree t p) in
      if is_leaf x then Ok (update p (refine_node n) t) else Throw
  | Unrefine p => let! x := of_option_ub (subtree t p) in Ok (update p unrefine_node t)
  | Set_status p s => let! x := of_option_ub (subtree t p) in Ok (update p (set_status_node s) t)
  | Set_elem p e => let! x := of_option_ub (subtree t p) in Ok (update p (set_elem_node e) t)
  | Clear_status p => let! x := of_option_ub (subtree t p) in Ok (update p clear_status_node t)
  | Flood_fill fuel p s => flood_fill fuel n t p s
  end.

(** A history of calls on a new tree; a call that throws leaves the tree as it was and the history goes on (the
    exceptions of src/Tree.cpp:58, 160 are thrown before anything is modified). *)
Fixpoint tree_run (n : nat) (t : tree) (ops : list tree_op) : outcome tree :=
  match ops with
  | [] => Ok t
  | op :: ops' =>
      match tree_step n t op with
      | Ok t' => tree_run n t' ops'
      | Throw => tree_run n t ops'
      | Ub => Ub
      | NoFuel => NoFuel
      end
  end.

(** ** Tree table of the mesh file (src/Accessible_mesh.cpp:1626-1636 and 1686-1701) *)

(** A data set with rows written by [h5_write_row] (association list, later writes first).
    (src/Accessible_mesh.cpp:1624) *)
Definition table := list (nat * list Z).

(** src/Accessible_mesh.cpp:1634: [h5_write_row] *)
Definition write_row (tb : table) (row : nat) (data : list Z) : table := (row, data) :: tb.

(** src/Accessible_mesh.cpp:1688: [h5_read_row]; reading a row that does not exist makes HDF5 throw *)
Fixpoint read_row (tb : table) (row : nat) : outcome (list Z) :=
  match tb with
  | [] => Throw
  | (r, d) :: tb' => if r =? row then Ok d else read_row tb' row
  end.

(** src/Accessible_mesh.cpp:1626-1635 [write_tree]: returns the row of [t], the new value of [row] and the table.
    [t->elem->record] is the element number. [data] starts as all -1 (line 1627), then entries are overwritten. *)
Fixpoint write_tree (n_vert : nat) (t : tree) (row : nat) (tb : table) {struct t} : nat * nat * table :=
  match t with
  | Node _ _ s e children =>
      let my_row := row in
      let '(rows, row', tb') :=
        (fix loop (cs : list tree) (row : nat) (tb : table) : list Z * nat * table :=
           match cs with
           | [] => ([], row, tb)
           | c :: cs' =>
               let '(r, row1, tb1) := write_tree n_vert c row tb in
               let '(rs, row2, tb2) := loop cs' row1 tb1 in
               (Z.of_nat r :: rs, row2, tb2)
           end) children (S row) tb in
      let data := (match e with Some i => i | None => (-1)%Z end) :: s :: rows ++ repeat (-1)%Z (n_vert - length rows) in
      (my_row, row', write_row tb' my_row data)
  end.

(** src/Accessible_mesh.cpp:1686-1700 [read_tree] into the (leaf) node [t] of a freshly created tree, from [row].
    Recursion depth bounded by [fuel]; the element pointers are element numbers again. *)
Fixpoint read_tree (fuel : nat) (n : nat) (tb : table) (t : tree) (row : nat) : outcome tree :=
  match fuel with
  | O => NoFuel
  | S fuel' =>
      let! data := read_row tb row in
      let! d0 := of_option_ub (nth_error data 0) in
      let! d1 := of_option_ub (nth_error data 1) in
      let! d2 := of_option_ub (nth_error data 2) in
      let t1 := if (0 <=? d0)%Z then set_elem_node (Some d0) t else t in
      let t2 := set_status_node d1 t1 in
      if (0 <=? d2)%Z then
        if is_leaf t2 then
          let t3 := refine_node n t2 in
          let! cs :=
            (fix loop (i : nat) (cs : list tree) : outcome (list tree) :=
               match cs with
               | [] => Ok []
               | c :: cs' =>
                   let! d := of_option_ub (nth_error data (2 + i)) in
                   let! c' := (if (d <? 0)%Z then Throw else read_tree fuel' n tb c (Z.to_nat d)) in
                   let! rest := loop (S i) cs' in
                   Ok (c' :: rest)
               end) 0 (t_children t3) in
          let (l, c, s, e, _) := t3 in Ok (Node l c s e cs)
        else Throw
      else Ok t2
  end.
