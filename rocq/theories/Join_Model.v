(** Model of how the elements of the tree are connected: [Accessible_mesh::connect_new] (src/Accessible_mesh.cpp:742-812),
    the deletion of extruded elements in [update] (lines 1301-1313), [purge] with [purge_connections]
    (lines 1102-1113, include/Mesh_by_type.hpp:194-215), and [update] as far as it concerns the elements of the tree.

    Simplifications common to the whole file, beyond those of Update_Model and Trim_Model:
    - The connections of all containers ([cons], [ref_face_cons], [bound_cons] of [car] and [def]) are in one list, oldest
      first; the containers are told apart by the kind of the connection and its flag for "deformed".
    - [Element::faces] (src/Element.cpp:185-186): of the pointer only whether it is null is modelled. A constructor of a
      connection sets it for the faces it is given, a destructor clears it (include/connection.hpp:111-131, 175-187, 226-277, 347-368).
    - Vertices, normals and the numerical storage of connections are not modelled. For connections along one dimension
      the permutation of the fine elements in the constructor of [Refined_connection] is the identity.
    - [Tree::def_elem] is the element of the node if that is deformed: it is set whenever a deformed element is paired with
      the node (line 654), and it is only used for deformed elements.
    - [Element::refinement_level] is the level of the node the element was made for (lines 650-651).
    - [extrude] is not modelled; connections it makes may be present: [Ext] between an element and one extruded from it, [Side]
      for all others between extruded elements and for boundary connections of extruded elements. *)
From Coq Require Import ZArith List Bool Arith.
From Verif Require Import Outcome Loop Tree_Model Update_Model Trim_Model.
Import ListNotations.
Local Open Scope nat_scope.

(** A face of an element: number of the element, dimension, and whether it is the upper one of the two. The number of the
    face is [2*i_dim + sign]. *)
Definition face := (nat * nat * bool)%type.

Inductive link : Type :=
(** include/connection.hpp:102-144 [Element_face_connection]: the face of the first element in dimension [d] on side [s] and
    the opposite face of the second element. The flag is true for connections in [def]. *)
| Conf (is_def : bool) (e0 e1 d : nat) (s : bool)
(** include/connection.hpp:168-287 [Refined_connection]: the face of the coarse element in dimension [d] on side [s] and the
    opposite faces of the fine ones *)
| Refd (is_def : bool) (coarse : nat) (fine : list nat) (d : nat) (s : bool)
(** include/connection.hpp:333-384 [Typed_bound_connection] of an element of the tree *)
| Bnd (e d : nat) (s : bool)
(** [Element_face_connection] made by [extrude] (lines 425-427): the face of the element [inner] extruded from, and the
    opposite one of the extruded element *)
| Ext (inner outer d : nat) (s : bool)
(** any other connection of extruded elements *)
| Side (faces : list face).

(** the faces a connection is connected to *)
Definition uses (l : link) : list face :=
  match l with
  | Conf _ a b d s => [(a, d, s); (b, d, negb s)]
  | Refd _ c fs d s => (c, d, s) :: map (fun f => (f, d, negb s)) fs
  | Bnd e d s => [(e, d, s)]
  | Ext i o d s => [(i, d, s); (o, d, negb s)]
  | Side fs => fs
  end.

Definition face_eqb (a b : face) : bool :=
  (fst (fst a) =? fst (fst b)) && (snd (fst a) =? snd (fst b)) && Bool.eqb (snd a) (snd b).

(** The mesh: tree and elements, connections, [extrude_cons] (include/Accessible_mesh.hpp:37) and which of the pointers
    [Element::faces] are not null. *)
Record joined : Type := mk_joined { j_st : state; j_links : list link; j_extr : list link; j_face : face -> bool }.

(** construction of a connection *)
Definition add_link (l : link) (js : joined) : joined :=
  mk_joined (j_st js) (j_links js ++ [l]) (j_extr js) (fun f => j_face js f || existsb (face_eqb f) (uses l)).

(** include/math.hpp:52-55 [sign] *)
Definition sgn (s : bool) : Z := if s then 1%Z else (-1)%Z.

(** the elements of nodes; [None] if one of the nodes has none *)
Fixpoint elems_at (st : state) (nb : list path) : option (list nat) :=
  match nb with
  | [] => Some []
  | q :: nb' => match elem_at st q, elems_at st nb' with Some i, Some l => Some (i :: l) | _, _ => None end
  end.

(** src/Accessible_mesh.cpp:749-765 [connect_refined]; [s] is the side of the face of the coarse element (the argument
    [sign] of the source is the one of the fine elements). The assertions throw. *)
Definition connect_refined (n coarse d : nat) (s : bool) (nb : list path) (js : joined) : outcome joined :=
  if length nb =? 2 ^ (n - 1) then
    match elems_at (j_st js) nb with
    | Some fs => Ok (add_link (Refd (def_of (j_st js) coarse && forallb (def_of (j_st js)) fs) coarse fs d s) js)
    | None => Throw
    end
  else Throw.

(** src/Accessible_mesh.cpp:796-799 [is_min_corner] *)
Definition min_corner (n : nat) (x : tree) (d : nat) : bool :=
  forallb (fun j => (j =? d) || (Z.rem (coord x j) 2 =? 0)%Z) (seq 0 n).

(** src/Accessible_mesh.cpp:783-791: a conformal connection of element [i] with its neighbour [j] on side [s] *)
Definition conformal (st : state) (i j d : nat) (s : bool) : link :=
  if def_of st i && def_of st j then Conf true i j d s
  else if s then Conf false i j d true else Conf false j i d true.

(** src/Accessible_mesh.cpp:770-806: one face of the element [i] of the node [p] *)
Definition connect_face (n i : nat) (p : path) (ds : nat * bool) (js : joined) : outcome joined :=
  let (d, s) := ds in
  let st := j_st js in
  if j_face js (i, d, s) then Ok js
  else
    let! nb := find_neighbors n (s_tree st) p (direct n d (sgn s)) in
    match nb with
    | [] => Ok (add_link (Bnd i d s) js)
    | q :: rest =>
        match elem_at st q with
        | None => Ok js
        | Some j =>
            match rest with
            | [] =>
                if level_at st q =? level_at st p then Ok (add_link (conformal st i j d s) js)
                else
                  let! x := of_option_ub (subtree (s_tree st) p) in
                  if min_corner n x d then
                    let! nb' := find_neighbors n (s_tree st) q (direct n d (- sgn s)) in
                    connect_refined n j d (negb s) nb' js
                  else Ok js
            | _ => connect_refined n i d s nb js
            end
        end
    end.

(** src/Accessible_mesh.cpp:770-771: the loop over the faces *)
Definition faces_of (n : nat) : list (nat * bool) := flat_map (fun d => [(d, false); (d, true)]) (seq 0 n).

(** src/Accessible_mesh.cpp:767-810: one element *)
Definition connect_elem (n i : nat) (js : joined) : outcome joined :=
  match tree_of (j_st js) i with
  | Some p => ofold (connect_face n i p) (faces_of n) js
  | None => Ok js
  end.

(** src/Accessible_mesh.cpp:742-812 [connect_new<element_t>(0)] *)
Definition connect_new (n : nat) (is_def : bool) (js : joined) : outcome joined :=
  ofold (connect_elem n) (container (j_st js) is_def) js.

(** ** Deletion *)

(** src/Accessible_mesh.cpp:1304-1312: one entry of [extrude_cons] *)
Definition drop_extruded (n : nat) (l : link) (st : state) : outcome state :=
  match l with
  | Ext i o d s =>
      if (record_of st i =? 2)%Z then Ok (set_record o 2 st)
      else match tree_of st i with
           | Some p =>
               let! nb := find_neighbor n (s_tree st) p (direct n d (sgn s)) in
               match nb with
               | Some q => if exists_at st q then Ok (set_record o 2 st) else Ok st
               | None => Ok st
               end
           | None => Ok st
           end
  | _ => Ok st
  end.

(** include/Mesh_by_type.hpp:194: the default predicate, [elem.record != 0] *)
Definition dead (st : state) (i : nat) : bool := negb (record_of st i =? 0)%Z.

(** include/Mesh_by_type.hpp:196-213: whether a connection is destroyed *)
Definition erased (n : nat) (st : state) (l : link) : outcome bool :=
  match l with
  | Bnd e d s =>
      match tree_of st e with
      | Some p =>
          let! nb := find_neighbor n (s_tree st) p (direct n d (sgn s)) in
          match nb with
          | Some q => match elem_at st q with Some _ => Ok true | None => Ok (dead st e) end
          | None => Ok (dead st e)
          end
      | None => Ok (dead st e)
      end
  | _ => Ok (existsb (fun f => dead st (fst (fst f))) (uses l))
  end.

(** [erase_if]: the connections that are kept and those that are destroyed *)
Fixpoint split_links (n : nat) (st : state) (ls : list link) : outcome (list link * list link) :=
  match ls with
  | [] => Ok ([], [])
  | l :: ls' =>
      let! b := erased n st l in
      let! (kept, gone) := split_links n st ls' in
      Ok (if (b : bool) then (kept, l :: gone) else (l :: kept, gone))
  end.

(** src/Accessible_mesh.cpp:1106: whether an entry of [extrude_cons] is erased *)
Definition extr_erased (st : state) (l : link) : bool := existsb (fun f => (record_of st (fst (fst f)) =? 2)%Z) (uses l).

(** The elements that are left get new numbers. *)
Definition renumber (st : state) (l : link) : link :=
  let r := new_number st in
  match l with
  | Conf b e0 e1 d s => Conf b (r e0) (r e1) d s
  | Refd b c fs d s => Refd b (r c) (map r fs) d s
  | Bnd e d s => Bnd (r e) d s
  | Ext i o d s => Ext (r i) (r o) d s
  | Side fs => Side (map (fun f => (r (fst (fst f)), snd (fst f), snd f)) fs)
  end.
Definition survivors (st : state) : list nat :=
  filter (fun i => match nth_error (s_elems st) i with Some e => alive e | None => false end) (seq 0 (length (s_elems st))).

(** src/Accessible_mesh.cpp:1102-1113 [purge] *)
Definition purge_all (n : nat) (js : joined) : outcome joined :=
  let st := j_st js in
  let! (kept, gone) := split_links n st (j_links js) in
  let flag := fun f => j_face js f && negb (existsb (fun l => existsb (face_eqb f) (uses l)) gone) in
  Ok (mk_joined (purge st) (map (renumber st) kept) (map (renumber st) (filter (fun l => negb (extr_erased st l)) (j_extr js)))
                (fun f => match nth_error (survivors st) (fst (fst f)) with
                          | Some i => flag (i, snd (fst f), snd f)
                          | None => false
                          end)).

(** ** The whole update *)

(** The pairs of an extruded element and the one it was extruded from, as [update_mesh] wants them. *)
Definition extr_pairs (js : joined) : list (nat * nat) :=
  flat_map (fun l => match l with Ext i o _ _ => [(o, i)] | _ => [] end) (j_extr js).

(** src/Accessible_mesh.cpp:1299-1316: after the smoothing of the refinement levels. [order k st]: the order of the elements
    in the [k]th parallel loop over the elements of a mesh in state [st]. *)
Definition finish_update (fuel n : nat) (away : path -> list bool -> bool) (order : nat -> state -> list nat) (js : joined) : outcome joined :=
  let st := j_st js in
  let! st := delete_bad fuel n away (fun k => order k st) st in
  let! st := deform fuel n (order 0 st) (order 1 st) (fun k => order k st) st in
  let! st := ofold (drop_extruded n) (j_extr js) st in
  let! js := purge_all n (mk_joined st (j_links js) (j_extr js) (j_face js)) in
  let! js := connect_new n false js in
  connect_new n true js.

(** src/Accessible_mesh.cpp:1129-1316 *)
Definition update_joined (fuel n : nat) (surf : path -> bool) (away : path -> list bool -> bool) (order : nat -> state -> list nat)
  (ref unref : nat -> bool) (js : joined) : outcome joined :=
  let! st := update_mesh fuel n surf ref unref (extr_pairs js) (j_st js) in
  finish_update fuel n away order (mk_joined st (j_links js) (j_extr js) (j_face js)).

(** src/Accessible_mesh.cpp:673-683 [add_tree] *)
Definition start_joined (n : nat) : joined :=
  fold_left (fun js ds => add_link (Bnd 0 (fst ds) (snd ds)) js) (faces_of n) (mk_joined (start_mesh n) [] [] (fun _ => false)).

(** src/Accessible_mesh.cpp:704-725 [set_surface] up to [extrude] *)
Definition surface_joined (fuel n : nat) (surf : path -> bool) (start : path) (away : path -> list bool -> bool)
  (order : nat -> state -> list nat) (js : joined) : outcome joined :=
  let! st := set_surface fuel n surf start (j_st js) in
  let! st := delete_bad fuel n away (fun k => order k st) st in
  let! st := deform fuel n (order 0 st) (order 1 st) (fun k => order k st) st in
  let! js := purge_all n (mk_joined st (j_links js) (j_extr js) (j_face js)) in
  let! js := connect_new n false js in
  connect_new n true js.
