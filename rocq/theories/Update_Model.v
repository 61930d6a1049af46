(** Model of mesh adaptation: [Accessible_mesh::update] (src/Accessible_mesh.cpp:1129-1298) up to and including the
    smoothing of the refinement levels, and the helpers it uses.

    Simplifications common to the whole file:
    - The state is the tree (Tree_Model) and the list of all elements ever created, oldest first. An element is known by
      its position in this list. The two containers [car.elems] and [def.elems] (include/Element_container.hpp:40-52)
      are the sublists of Cartesian and of deformed elements: each of them is in order of creation.
    - The pair of mutual pointers [Element::tree] / [Tree::elem] (include/Mutual_ptr.hpp): the node holds the number of
      its element ([t_elem]), the element remembers the node it was paired with when it was created ([e_path]).
      [Element::tree] is not null iff that node still exists and still holds the number of this element: deleting the
      node or pairing it with another element unpairs both ends (include/Mutual_ptr.hpp:31, 50-66).
      [e_path] is [None] for extruded elements, which never have a node.
    - [Element::record] is an [int] = [Z]; of the other members only the deformity and [unrefinement_locked] are modelled.
      [set_needs_smooth], positions and the numerical state of new elements are not modelled.
    - The surface geometry is a predicate on nodes: [surf p] is the value of [intersects_surface] for the node at path [p].
      It depends on nothing but the position and size of the node (src/Accessible_mesh.cpp:685-690), hence on the path.
    - Loops marked [omp parallel for] run in the order of their index here. In the smoothing loop (lines 1285-1296) and
      in lines 1211-1218 the iterations do not read what other iterations write (a record changes from 0 to 1 or from -1
      to 0, and what is read is whether it is 2), so any order gives the same; for the loop over the extrusion
      connections (line 1153) the order matters, and the list of connections is taken in the order of execution.
    - The rest of [update] after line 1296 ([delete_bad_extrusions], [deform], [purge], connecting, extruding) is not
      modelled here. It does not refine or unrefine any node: it sets records to 2 and replaces elements by elements of
      the other deformity at the same node (lines 890-1100). *)
From Coq Require Import ZArith List Bool Arith.
From Verif Require Import Outcome Loop Tree_Model.
Import ListNotations.
Local Open Scope nat_scope.

(** include/Element.hpp:50-56, include/Mutual_ptr.hpp *)
Record elem : Type := mk_elem { e_path : option path; e_def : bool; e_record : Z; e_locked : bool }.

(** The mesh: [tree] and the elements (include/Accessible_mesh.hpp). *)
Record state : Type := mk_state { s_tree : tree; s_elems : list elem }.

(** assignment to [elem.record] *)
Definition put_record (r : Z) (e : elem) : elem := mk_elem (e_path e) (e_def e) r (e_locked e).
Definition set_record (i : nat) (r : Z) (st : state) : state :=
  mk_state (s_tree st) (update_nth i (put_record r) (s_elems st)).

(** [tree->elem] (include/Tree.hpp:62): the number of the element paired with the node at [p]; [None] is null *)
Definition elem_at (st : state) (p : path) : option nat :=
  match subtree (s_tree st) p with
  | Some x => match t_elem x with Some z => Some (Z.to_nat z) | None => None end
  | None => None
  end.

(** [elem.tree] for the element with number [i]; [None] is null *)
Definition tree_of (st : state) (i : nat) : option path :=
  match nth_error (s_elems st) i with
  | Some e => match e_path e with
              | Some p => match elem_at st p with
                          | Some j => if j =? i then Some p else None
                          | None => None
                          end
              | None => None
              end
  | None => None
  end.

(** [elem.record] for the element with number [i] *)
Definition record_of (st : state) (i : nat) : Z :=
  match nth_error (s_elems st) i with Some e => e_record e | None => 2%Z end.

(** src/Accessible_mesh.cpp:840-849 [exists] *)
Definition exists_at (st : state) (p : path) : bool :=
  match elem_at st p with
  | Some i => negb (record_of st i =? 2)%Z
  | None => false
  end.

(** include/math.hpp:52-55 [sign(i_face%2)] *)
Definition face_sign (i_face : nat) : Z := if i_face mod 2 =? 0 then (-1)%Z else 1%Z.

(** src/math.cpp:14-17 [direction(n_dim, i_face)] *)
Definition face_dir (n i_face : nat) : list Z := direct n (i_face / 2) (face_sign i_face).

(** src/Accessible_mesh.cpp:864-865: [dir] with the entry of dimension [j_face/2] replaced *)
Definition diag_dir (n i_face j_face : nat) : list Z :=
  map (fun k => if k =? j_face / 2 then face_sign j_face else nth k (face_dir n i_face) 0%Z)
      (seq 0 n).

(** src/Accessible_mesh.cpp:854-871: the directions looked at, in order; the diagonal ones only if the node has an
    element *)
Definition needs_dirs (n : nat) (has_elem : bool) : list (list Z) :=
  flat_map (fun i_face => face_dir n i_face ::
                          (if has_elem then map (diag_dir n i_face) (seq 0 (2 * (i_face / 2))) else []))
           (seq 0 (2 * n)).

(** refinement level of the node at [q] *)
Definition level_at (st : state) (q : path) : nat :=
  match subtree (s_tree st) q with Some y => t_level y | None => 0 end.

(** src/Accessible_mesh.cpp:859 [too_fine] *)
Definition too_fine (st : state) (rl : nat) (q : path) : bool := exists_at st q && (rl + 1 <? level_at st q).

(** src/Accessible_mesh.cpp:858-868: [any_of] over the neighbours in each of the directions *)
Fixpoint any_too_fine (n : nat) (st : state) (p : path) (rl : nat) (dirs : list (list Z)) : outcome bool :=
  match dirs with
  | [] => Ok false
  | d :: dirs' =>
      let! nb := find_neighbors n (s_tree st) p d in
      if existsb (too_fine st rl) nb then Ok true else any_too_fine n st p rl dirs'
  end.

(** src/Accessible_mesh.cpp:852-874 [needs_refine] *)
Definition needs_refine (n : nat) (st : state) (p : path) : outcome bool :=
  let! x := of_option_ub (subtree (s_tree st) p) in
  any_too_fine n st p (t_level x) (needs_dirs n (match t_elem x with Some _ => true | None => false end)).

(** src/Accessible_mesh.cpp:876-881 [has_existent_children]: any element paired with the node or one below *)
Fixpoint has_existent (t : tree) : bool :=
  match t with
  | Node _ _ _ e cs => match e with Some _ => true | None => existsb has_existent cs end
  end.

(** a call on a node of the tree *)
Definition on_tree (n : nat) (op : tree_op) (st : state) : outcome state :=
  let! t := tree_step n (s_tree st) op in Ok (mk_state t (s_elems st)).

(** the children of the node at [p] as paths (src/Tree.cpp:39-44) *)
Definition child_paths (n : nat) (p : path) : list path := map (fun k => p ++ [k]) (seq 0 (2 ^ n)).

(** src/Accessible_mesh.cpp:814-820 [refine_set_status] *)
Definition refine_set_status (n : nat) (surf : path -> bool) (p : path) (st : state) : outcome state :=
  let! st := on_tree n (Refine p) st in
  ofold (fun q st => on_tree n (Set_status q (if surf q then 0 else -1)%Z) st) (child_paths n p) st.

(** src/Accessible_mesh.cpp:647-658 [add_elem] followed by [.record = 0] (all callers in [update] do that).
    [Element::unrefinement_locked] starts as [false] (include/Element.hpp:53). *)
Definition add_elem (n : nat) (is_def : bool) (p : path) (st : state) : outcome state :=
  let! st' := on_tree n (Set_elem p (Some (Z.of_nat (length (s_elems st))))) st in
  Ok (mk_state (s_tree st') (s_elems st' ++ [mk_elem (Some p) is_def 0%Z false])).

(** src/Accessible_mesh.cpp:827-836: one pass of [refine_by_record] *)
Definition refine_one (n : nat) (surf : path -> bool) (is_def : bool) (i : nat) (st : state) : outcome state :=
  match tree_of st i with
  | Some p =>
      if (record_of st i =? 1)%Z then
        let! st := refine_set_status n surf p (set_record i 2 st) in
        ofold (fun q st => add_elem n is_def q st) (child_paths n p) st
      else Ok st
  | None => Ok st
  end.

(** the numbers of the elements of one container, in order (include/Element_container.hpp:64-68) *)
Definition container (st : state) (is_def : bool) : list nat :=
  filter (fun i => match nth_error (s_elems st) i with Some e => Bool.eqb (e_def e) is_def | None => false end)
         (seq 0 (length (s_elems st))).

(** src/Accessible_mesh.cpp:823-838 [refine_by_record(is_deformed, 0, end)] for [end] the size of the container now:
    elements added during the loop are behind [end]. *)
Definition refine_by_record (n : nat) (surf : path -> bool) (is_def : bool) (st : state) : outcome state :=
  ofold (refine_one n surf is_def) (container st is_def) st.

(** src/Accessible_mesh.cpp:1142-1151: decide which elements to (un)refine; [ref], [unref] are the criteria *)
Definition decide (ref unref : nat -> bool) (st : state) : state :=
  mk_state (s_tree st)
    (map (fun ie => put_record (if ref (fst ie) && negb (unref (fst ie)) then 1
                                else if unref (fst ie) && negb (ref (fst ie)) then -1 else 0)%Z (snd ie))
         (combine (seq 0 (length (s_elems st))) (s_elems st))).

(** src/Accessible_mesh.cpp:1155-1159: pass the request and the lock of the extruded element [out] to [ins] *)
Definition pass_one (con : nat * nat) (st : state) : state :=
  match nth_error (s_elems st) (fst con) with
  | Some o =>
      mk_state (s_tree st)
        (update_nth (snd con)
           (fun e => mk_elem (e_path e) (e_def e)
                       (if (e_record e =? 0)%Z then e_record o else Z.max (e_record e) (e_record o))
                       (e_locked e || e_locked o))
           (s_elems st))
  | None => st
  end.
(** src/Accessible_mesh.cpp:1154-1160: the loop over [extrude_cons] (pairs: extruded element, element it was extruded
    from), in the order in which the iterations get the lock *)
Definition pass_requests (cons : list (nat * nat)) (st : state) : state := fold_left (fun st c => pass_one c st) cons st.

(** src/Accessible_mesh.cpp:1181-1187: do the siblings agree; the condition for one child *)
Definition child_agrees (st : state) (q : path) : bool :=
  match subtree (s_tree st) q with
  | Some ch =>
      if negb (is_leaf ch) && has_existent ch then false
      else match elem_at st q with
           | Some j => if (record_of st j =? 2)%Z then true else (record_of st j =? -1)%Z
           | None => true
           end
  | None => false
  end.
(** src/Accessible_mesh.cpp:1185 (only reached under line 1183): is the child deformed *)
Definition child_def (st : state) (q : path) : bool :=
  match subtree (s_tree st) q with
  | Some ch =>
      if negb (is_leaf ch) && has_existent ch then false
      else match elem_at st q with
           | Some j => if (record_of st j =? 2)%Z then false
                       else match nth_error (s_elems st) j with Some e => e_def e | None => false end
           | None => false
           end
  | None => false
  end.
(** src/Accessible_mesh.cpp:1195-1199, 1236-1240: records of the elements of the children *)
Definition delete_children (qs : list path) (st : state) : state :=
  fold_left (fun st q => match elem_at st q with Some j => set_record j 2 st | None => st end) qs st.

(** src/Accessible_mesh.cpp:1172-1204: one pass of the unrefinement loop; the flag is [changed] *)
Definition unrefine_one (n : nat) (i : nat) (sc : state * bool) : outcome (state * bool) :=
  let (st, changed) := sc in
  match tree_of st i with
  | Some p =>
      if (record_of st i =? -1)%Z then
        match p with
        | [] => Ok sc
        | _ =>
            let parent := removelast p in
            let qs := child_paths n parent in
            let locked := match nth_error (s_elems st) i with Some e => e_locked e | None => true end in
            if negb locked && forallb (child_agrees st) qs then
              let! bad := needs_refine n st parent in
              if bad then Ok sc
              else
                let is_def := existsb (child_def st) qs in
                let! st := on_tree n (Unrefine parent) (delete_children qs st) in
                let! st := add_elem n is_def parent st in
                Ok (st, true)
            else Ok (set_record i 0 st, changed)
        end
      else Ok sc
  | None => Ok sc
  end.

(** src/Accessible_mesh.cpp:1168-1207: one sweep over the original elements [orig false], [orig true] *)
Definition unrefine_sweep (n : nat) (orig : bool -> list nat) (st : state) : outcome (state * bool) :=
  ofold (unrefine_one n) (orig false ++ orig true) (st, false).

(** src/Accessible_mesh.cpp:1166-1208: [do ... while (changed)] *)
Fixpoint unrefine_loop (fuel : nat) (n : nat) (orig : bool -> list nat) (st : state) : outcome state :=
  match fuel with
  | O => NoFuel
  | S fuel' =>
      let! (st', changed) := unrefine_sweep n orig st in
      if (changed : bool) then unrefine_loop fuel' n orig st' else Ok st'
  end.

(** src/Accessible_mesh.cpp:1209-1213 *)
Definition reset_denied (st : state) : state :=
  mk_state (s_tree st) (map (fun e => if (e_record e =? -1)%Z then put_record 0 e else e) (s_elems st)).

(** src/Accessible_mesh.cpp:692-695 [is_surface] *)
Definition is_surface (st : state) (p : path) : bool :=
  match subtree (s_tree st) p with Some x => (t_status x =? 0)%Z | None => false end.

(** src/Accessible_mesh.cpp:1214-1220: delete new elements on the surface; the new ones are all but the first
    [length (orig d)] of each container, in the end all elements with a number of at least [n0], the number of elements
    before line 1163 *)
Definition unfill (n0 : nat) (st : state) : state :=
  fold_left (fun st i => match tree_of st i with
                         | Some p => if negb (record_of st i =? 2)%Z && is_surface st p then set_record i 2 st else st
                         | None => st
                         end)
            (seq n0 (length (s_elems st) - n0)) st.

(** src/Accessible_mesh.cpp:1248-1252: the minimum refinement level of the existing neighbours of a node; [None] is the
    largest [int] *)
Fixpoint min_level (n : nat) (st : state) (q : path) (dirs : list (list Z)) (m : option nat) : outcome (option nat) :=
  match dirs with
  | [] => Ok m
  | d :: dirs' =>
      let! nb := find_neighbor n (s_tree st) q d in
      min_level n st q dirs'
        (match nb with
         | Some r => if exists_at st r
                     then Some (match m with Some k => Nat.min k (level_at st r) | None => level_at st r end)
                     else m
         | None => m
         end)
  end.

(** src/Accessible_mesh.cpp:1228-1260: synchronise the refinement level of the non-existing neighbour of the node [p] of
    an element in one direction *)
Definition sync_one (n : nat) (surf : path -> bool) (p : path) (dir : list Z) (sc : state * bool) : outcome (state * bool) :=
  let (st, changed) := sc in
  let! nb := find_neighbor n (s_tree st) p dir in
  match nb with
  | None => Ok sc
  | Some q =>
      if exists_at st q then Ok sc
      else if level_at st p <? level_at st q then
        match q with
        | [] => Ub
        | _ =>
            let parent := removelast q in
            let qs := child_paths n parent in
            if forallb (fun c => negb (exists_at st c)) qs then
              let! bad := needs_refine n st parent in
              if bad then Ok sc
              else let! st := on_tree n (Unrefine parent) (delete_children qs st) in Ok (st, true)
            else Ok sc
        end
      else if level_at st q + 1 <? level_at st p then
        let! st := refine_set_status n surf q st in Ok (st, true)
      else if level_at st q <? level_at st p then
        let! m := min_level n st q (map (face_dir n) (seq 0 (2 * n))) None in
        if (match m with Some k => level_at st q <? k | None => true end)
        then let! st := refine_set_status n surf q st in Ok (st, true)
        else Ok sc
      else Ok sc
  end.

(** src/Accessible_mesh.cpp:1224-1264: one element. Elements which are not (or no longer) paired are skipped. When the
    node of the element itself disappears during the loop over its faces the code calls a null pointer: [Ub]. *)
Definition sync_elem (n : nat) (surf : path -> bool) (i : nat) (sc : state * bool) : outcome (state * bool) :=
  match tree_of (fst sc) i with
  | Some p =>
      if exists_at (fst sc) p then
        ofold (fun i_face sc =>
                 match tree_of (fst sc) i with
                 | Some p => sync_one n surf p (face_dir n i_face) sc
                 | None => Ub
                 end) (seq 0 (2 * n)) sc
      else Ok sc
  | None => Ok sc
  end.

(** src/Accessible_mesh.cpp:1273-1277: a new element at a non-existing neighbour off the surface *)
Definition fill_one (n : nat) (is_def : bool) (q : path) (sc : state * bool) : outcome (state * bool) :=
  let (st, changed) := sc in
  if negb (exists_at st q) && negb (is_surface st q) then
    let! st := add_elem n is_def q st in
    let! st := on_tree n (Set_status q 1%Z) st in
    Ok (st, true)
  else Ok sc.

(** src/Accessible_mesh.cpp:1268-1281: one element of the container [is_def] *)
Definition fill_elem (n : nat) (is_def : bool) (i : nat) (sc : state * bool) : outcome (state * bool) :=
  match tree_of (fst sc) i with
  | Some p =>
      if exists_at (fst sc) p then
        ofold (fun i_face sc =>
                 let! nb := find_neighbors n (s_tree (fst sc)) p (face_dir n i_face) in
                 ofold (fill_one n is_def) nb sc) (seq 0 (2 * n)) sc
      else Ok sc
  | None => Ok sc
  end.

(** src/Accessible_mesh.cpp:1222-1282: one iteration of the incremental flood fill. [elements()] is the Cartesian elements
    followed by the deformed ones. The size of each container is taken when its turn comes (line 1269). *)
Definition flood_iter (n : nat) (surf : path -> bool) (st : state) : outcome (state * bool) :=
  let! sc := ofold (sync_elem n surf) (container st false ++ container st true) (st, false) in
  let! sc := ofold (fill_elem n false) (container (fst sc) false) sc in
  ofold (fill_elem n true) (container (fst sc) true) sc.

(** src/Accessible_mesh.cpp:1221-1283 *)
Fixpoint flood_loop' (fuel : nat) (n : nat) (surf : path -> bool) (st : state) : outcome state :=
  match fuel with
  | O => NoFuel
  | S fuel' =>
      let! (st', changed) := flood_iter n surf st in
      if (changed : bool) then flood_loop' fuel' n surf st' else Ok st'
  end.

(** src/Accessible_mesh.cpp:1288-1294: mark one element for smoothing *)
Definition mark_one (n : nat) (i : nat) (sc : state * bool) : outcome (state * bool) :=
  let (st, changed) := sc in
  match tree_of st i with
  | Some p =>
      if (record_of st i =? 2)%Z then Ok sc
      else
        let! bad := needs_refine n st p in
        if bad then Ok (set_record i 1 st, true) else Ok sc
  | None => Ok sc
  end.

(** src/Accessible_mesh.cpp:1284-1297: the smoothing loop *)
Fixpoint smooth_loop (fuel : nat) (n : nat) (surf : path -> bool) (st : state) : outcome state :=
  match fuel with
  | O => NoFuel
  | S fuel' =>
      let! (st, changed) := ofold (mark_one n) (container st false ++ container st true) (st, false) in
      let! st := refine_by_record n surf false st in
      let! st := refine_by_record n surf true st in
      if (changed : bool) then smooth_loop fuel' n surf st else Ok st
  end.

(** src/Accessible_mesh.cpp:1129-1297. [fuel] bounds the number of iterations of each of the three [do ... while] loops. *)
Definition update_mesh (fuel n : nat) (surf : path -> bool) (ref unref : nat -> bool) (cons : list (nat * nat)) (st : state)
  : outcome state :=
  let st := pass_requests cons (decide ref unref st) in
  let n0 := length (s_elems st) in
  let orig := container st in
  let! st := refine_by_record n surf false st in
  (* line 1164 uses the sizes taken in line 1163: elements made for Cartesian elements are Cartesian, so the container of
     the deformed ones is still the original one *)
  let! st := refine_by_record n surf true st in
  let! st := unrefine_loop fuel n orig st in
  let st := unfill n0 (reset_denied st) in
  let! st := flood_loop' fuel n surf st in
  smooth_loop fuel n surf st.

(** ** What happens around [update] *)

(** src/Accessible_mesh.cpp:673-683 [add_tree] on an empty mesh: a tree with one Cartesian element *)
Definition start_mesh (n : nat) : state :=
  mk_state (update [] (set_elem_node (Some 0%Z)) (new_tree n)) [mk_elem (Some []) false 0%Z false].

(** src/Accessible_mesh.cpp:704-717, the part of [set_surface] before [delete_bad_extrusions]: nodes of elements that
    intersect the surface get status 0, the tree is flooded from the leaf [start], and the elements whose node was not
    reached are deleted. *)
Definition mark_surface (n : nat) (surf : path -> bool) (i : nat) (st : state) : outcome state :=
  match tree_of st i with
  | Some p => if surf p then on_tree n (Set_status p 0%Z) st else Ok st
  | None => Ok st
  end.
Definition drop_unreached (st : state) : state :=
  fold_left (fun st i => match tree_of st i with
                         | Some p => match subtree (s_tree st) p with
                                     | Some x => if (t_status x =? 1)%Z then set_record i 0 st else set_record i 2 st
                                     | None => st
                                     end
                         | None => set_record i 0 st
                         end) (seq 0 (length (s_elems st))) st.
Definition set_surface (fuel n : nat) (surf : path -> bool) (start : path) (st : state) : outcome state :=
  let! st := ofold (mark_surface n surf) (container st false ++ container st true) st in
  let! st := on_tree n (Flood_fill fuel start 1%Z) st in
  Ok (drop_unreached st).

(** src/Accessible_mesh.cpp:1102-1113 [purge] and include/Element_container.hpp:72-87: elements whose record is not 0 are
    destroyed, which unpairs their nodes (include/Mutual_ptr.hpp:31). The elements are renumbered. *)
Definition alive (e : elem) : bool := (e_record e =? 0)%Z.
Definition new_number (st : state) (i : nat) : nat := length (filter alive (firstn i (s_elems st))).
Fixpoint repair (st : state) (t : tree) : tree :=
  match t with
  | Node l c s e cs =>
      Node l c s (match e with
                  | Some z => match nth_error (s_elems st) (Z.to_nat z) with
                              | Some el => if alive el then Some (Z.of_nat (new_number st (Z.to_nat z))) else None
                              | None => None
                              end
                  | None => None
                  end)
           (map (repair st) cs)
  end.
Definition purge (st : state) : state := mk_state (repair st (s_tree st)) (filter alive (s_elems st)).
