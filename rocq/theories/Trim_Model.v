(** Model of what [Accessible_mesh::update] and [set_surface] do after the refinement of the tree is settled:
    [delete_bad_extrusions] (src/Accessible_mesh.cpp:889-1007) and [deform] (lines 1009-1100).

    Simplifications common to the whole file (see also the header of Update_Model):
    - The state is that of Update_Model: the tree and the list of all elements. Neither function refines or unrefines a
      node.
    - The loops over the elements are parallel in the source. In the model one iteration follows another, in an order that
      is an argument; the theorems hold for every order. (An iteration which changes nothing reads only what no other
      iteration changed, so the states in which the loops stop are the same for interleaved iterations.)
    - The test in lines 973-1003, whether exposed faces, edges or vertices face away from the surface, is an arbitrary
      predicate of the node and of the list of exposed faces; without surface geometry it is always false.
    - Positions and the numerical state of the elements are left out. *)
From Coq Require Import ZArith List Bool Arith.
From Verif Require Import Outcome Loop Tree_Model Update_Model.
Import ListNotations.
Local Open Scope nat_scope.

(** ** [delete_bad_extrusions] *)

(** src/Accessible_mesh.cpp:908-911, 958-959: [std::all_of(..., exists)], [std::any_of(..., exists)] *)
Definition all_there (st : state) (nb : list path) : bool := forallb (exists_at st) nb.
Definition some_there (st : state) (nb : list path) : bool := existsb (exists_at st) nb.

(** [exposed[i_face]] *)
Definition is_exposed (exposed : list bool) (i_face : nat) : bool := nth i_face exposed false.

(** src/Accessible_mesh.cpp:927-939 and 944-954: neighbours [nb] of element number [i] (on a node of level [rl]) across an
    edge or a vertex all of whose faces are exposed; the flag is [changed] *)
Definition delete_diag (i rl : nat) (nb : list path) (sc : state * bool) : state * bool :=
  fold_left (fun (sc : state * bool) q =>
               let (st, changed) := sc in
               if exists_at st q && (rl <=? level_at st q) then
                 match elem_at st q with
                 | Some j => let st' := set_record j 2 st in
                             (if level_at st q =? rl then set_record i 2 st' else st', true)
                 | None => sc
                 end
               else sc) nb sc.

(** src/Accessible_mesh.cpp:941-942: [dir] with the entry of dimension [k_face/2] replaced *)
Definition corner_dir (n i_face j_face k_face : nat) : list Z :=
  map (fun k => if k =? k_face / 2 then face_sign k_face else nth k (diag_dir n i_face j_face) 0%Z) (seq 0 n).

(** src/Accessible_mesh.cpp:940-955: one [k_face] *)
Definition scan_corner (n i : nat) (p : path) (exposed : list bool) (i_face j_face k_face : nat) (sc : state * bool)
  : outcome (state * bool) :=
  if is_exposed exposed k_face then
    let! nb := find_neighbors n (s_tree (fst sc)) p (corner_dir n i_face j_face k_face) in
    Ok (delete_diag i (level_at (fst sc) p) nb sc)
  else Ok sc.

(** src/Accessible_mesh.cpp:920-969: one [j_face] *)
Definition scan_edge (n i : nat) (p : path) (exposed : list bool) (i_face j_face : nat) (sc : state * bool)
  : outcome (state * bool) :=
  if is_exposed exposed i_face || is_exposed exposed j_face then
    let! nb := find_neighbors n (s_tree (fst sc)) p (diag_dir n i_face j_face) in
    if is_exposed exposed i_face && is_exposed exposed j_face then
      ofold (scan_corner n i p exposed i_face j_face) (seq 0 (2 * (j_face / 2)))
            (delete_diag i (level_at (fst sc) p) nb sc)
    else if n =? 3 then
      if negb (all_there (fst sc) nb) && some_there (fst sc) nb then Ok (delete_children nb (fst sc), true) else Ok sc
    else Ok sc
  else Ok sc.

(** src/Accessible_mesh.cpp:905-971: one [i_face]. [exposed] has the entries for the faces up to the last one. *)
Definition scan_face (n i : nat) (p : path) (i_face : nat) (sce : (state * bool) * list bool)
  : outcome ((state * bool) * list bool) :=
  let (sc, exposed) := sce in
  let! nb := find_neighbors n (s_tree (fst sc)) p (face_dir n i_face) in
  let all_exist := all_there (fst sc) nb in
  let exposed := exposed ++ [negb all_exist] in
  let sc := if (1 <? length nb) && (some_there (fst sc) nb && negb all_exist)
            then (delete_children nb (fst sc), true) else sc in
  let! sc := ofold (scan_edge n i p exposed i_face) (seq 0 (2 * (i_face / 2))) sc in
  Ok (sc, exposed).

(** src/Accessible_mesh.cpp:898-1005: one element *)
Definition scan_elem (n : nat) (away : path -> list bool -> bool) (i : nat) (sc : state * bool) : outcome (state * bool) :=
  match tree_of (fst sc) i with
  | Some p =>
      if (record_of (fst sc) i =? 2)%Z then Ok sc
      else
        let! (sc, exposed) := ofold (scan_face n i p) (seq 0 (2 * n)) (sc, []) in
        if existsb (fun b => b) exposed && away p exposed then Ok (set_record i 2 (fst sc), true) else Ok sc
  | None => Ok sc
  end.

(** src/Accessible_mesh.cpp:890-1007 [delete_bad_extrusions]; [order k] is the order of the elements in the sweep that is
    [k] sweeps before the last one possible *)
Fixpoint delete_bad (fuel n : nat) (away : path -> list bool -> bool) (order : nat -> list nat) (st : state) : outcome state :=
  match fuel with
  | O => NoFuel
  | S fuel' =>
      let! (st', changed) := ofold (scan_elem n away) (order fuel') (st, false) in
      if (changed : bool) then delete_bad fuel' n away order st' else Ok st'
  end.

(** ** [deform] *)

(** [elem.get_is_deformed()] *)
Definition def_of (st : state) (i : nat) : bool := match nth_error (s_elems st) i with Some e => e_def e | None => false end.

(** src/Accessible_mesh.cpp:883-887 [is_def] *)
Definition is_def (st : state) (i : nat) : bool :=
  (def_of st i && (record_of st i =? 0)%Z) || (negb (def_of st i) && (record_of st i =? 3)%Z).

(** [elem.record = 3*!elem.get_is_deformed()] (lines 1039, 1048, 1078) *)
Definition make_def (i : nat) (st : state) : state := set_record i (if def_of st i then 0 else 3)%Z st.

(** src/Accessible_mesh.cpp:1013-1018: start with all elements as Cartesian *)
Definition undeform_one (i : nat) (st : state) : state :=
  match tree_of st i with
  | Some _ => if negb (record_of st i =? 2)%Z && def_of st i then set_record i 3 st else st
  | None => st
  end.

(** src/Accessible_mesh.cpp:1029-1033: [surface[i_face]] *)
Definition at_surface (st : state) (nb : list path) : bool :=
  match nb with
  | [] => false
  | q :: _ => match elem_at st q with Some j => (record_of st j =? 2)%Z | None => true end
  end.

(** src/Accessible_mesh.cpp:1046-1049 *)
Definition def_neighbor (q : path) (st : state) : state :=
  match elem_at st q with
  | Some j => if (record_of st j =? 2)%Z then st else make_def j st
  | None => st
  end.

(** src/Accessible_mesh.cpp:1041-1044: the faces whose neighbours are to be deformed *)
Definition def_face (n : nat) (surface : list bool) (i_face : nat) : bool :=
  existsb (fun j_face => negb (j_face / 2 =? i_face / 2) && nth j_face surface false) (seq 0 (2 * n)).

(** src/Accessible_mesh.cpp:1025-1029: [neighbors[i_face]] for all faces *)
Fixpoint all_neighbors (n : nat) (t : tree) (p : path) (faces : list nat) : outcome (list (list path)) :=
  match faces with
  | [] => Ok []
  | f :: faces' => let! nb := find_neighbors n t p (face_dir n f) in let! rest := all_neighbors n t p faces' in Ok (nb :: rest)
  end.

(** src/Accessible_mesh.cpp:1020-1054: one element *)
Definition deform_one (n : nat) (i : nat) (st : state) : outcome state :=
  match tree_of st i with
  | Some p =>
      if (record_of st i =? 2)%Z then Ok st
      else
        let! nbs := all_neighbors n (s_tree st) p (seq 0 (2 * n)) in
        let surface := map (at_surface st) nbs in
        if existsb (fun b => b) surface then
          Ok (fold_left (fun st i_face => if def_face n surface i_face
                                          then fold_left (fun st q => def_neighbor q st) (nth i_face nbs []) st
                                          else st) (seq 0 (2 * n)) (make_def i st))
        else Ok st
  | None => Ok st
  end.

(** src/Accessible_mesh.cpp:1063-1082: one face of an element *)
Definition spread_face (n : nat) (p : path) (i_face : nat) (sc : state * bool) : outcome (state * bool) :=
  let (st, changed) := sc in
  let! nb := find_neighbors n (s_tree st) p (face_dir n i_face) in
  let elems := flat_map (fun q => match elem_at st q with Some j => [j] | None => [] end) nb in
  if existsb (is_def st) elems && negb (forallb (is_def st) elems)
  then Ok (fold_left (fun st j => make_def j st) elems st, true)
  else Ok sc.

(** src/Accessible_mesh.cpp:1059-1084: one element *)
Definition spread_one (n : nat) (i : nat) (sc : state * bool) : outcome (state * bool) :=
  match tree_of (fst sc) i with
  | Some p => if is_def (fst sc) i then ofold (spread_face n p) (seq 0 (2 * n)) sc else Ok sc
  | None => Ok sc
  end.

(** src/Accessible_mesh.cpp:1055-1085 *)
Fixpoint spread_loop (fuel n : nat) (order : nat -> list nat) (st : state) : outcome state :=
  match fuel with
  | O => NoFuel
  | S fuel' =>
      let! (st', changed) := ofold (spread_one n) (order fuel') (st, false) in
      if (changed : bool) then spread_loop fuel' n order st' else Ok st'
  end.

(** src/Accessible_mesh.cpp:1091-1098: one element of the container [is_deformed]; [*elem.tree] of a null pointer is [Ub].
    [add_elem] pairs the node with the new element, which unpairs the old one (include/Mutual_ptr.hpp:50-66), so that
    [elem.tree.unpair()] has nothing left to do. *)
Definition toggle_one (n : nat) (is_deformed : bool) (i : nat) (st : state) : outcome state :=
  if (record_of st i =? 3)%Z then
    let! p := of_option_ub (tree_of st i) in
    let! st := add_elem n (negb is_deformed) p st in
    Ok (set_record i 2 st)
  else Ok st.

(** src/Accessible_mesh.cpp:1086-1099 *)
Definition toggle (n : nat) (st : state) : outcome state :=
  let! st := ofold (toggle_one n false) (container st false) st in
  ofold (toggle_one n true) (container st true) st.

(** src/Accessible_mesh.cpp:1009-1100 [deform]; [ord1], [ord2]: orders of the elements in the first two loops *)
Definition deform (fuel n : nat) (ord1 ord2 : list nat) (order : nat -> list nat) (st : state) : outcome state :=
  let st := fold_left (fun st i => undeform_one i st) ord1 st in
  let! st := ofold (deform_one n) ord2 st in
  let! st := spread_loop fuel n order st in
  toggle n st.
