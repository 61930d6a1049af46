(** Model of the extruded elements: [Accessible_mesh::extrude] (src/Accessible_mesh.cpp:334-616) as far as it makes elements
    and connects them with those they are extruded from, [connect_rest] (lines 618-632, include/Mesh_by_type.hpp:149-190),
    [disconnect_boundary] (lines 240-244), and [update] and [set_surface] up to [connect_rest].

    Simplifications common to the whole file, beyond those of Join_Model:
    - How extruded elements are connected with each other and with the boundary of the tree (lines 363-388, 429-437, 509-615)
      is a parameter [sides]: the connections that are made there, as the lists of their faces.
    - [extrude] leaves serial numbers in [Element::record] (lines 366, 416); here the records stay 0. [update] (lines
      1142-1151) and [set_surface] (lines 714-719) write all records before they read any.
    - Which boundary condition a boundary connection of an extruded element has is not modelled; [disconnect_boundary] is
      given the faces to disconnect.
    - Vertices, their positions and the numerical solution ([collapse], [offset], lines 418-424, 438-500) are left out. *)
From Coq Require Import ZArith List Bool Arith.
From Verif Require Import Outcome Loop Tree_Model Update_Model Trim_Model Join_Model.
Import ListNotations.
Local Open Scope nat_scope.

(** src/Accessible_mesh.cpp:341-363, include/Mesh_by_type.hpp:149-172 [record_connections]: whether [face_record] is not 0 *)
Definition recorded (js : joined) (f : face) : bool := existsb (fun l => existsb (face_eqb f) (uses l)) (j_links js).

(** the faces of an element without connections, in the order of lines 395-403 *)
Definition bare_faces (n : nat) (js : joined) (i : nat) : list face :=
  filter (fun f => negb (recorded js f)) (map (fun ds => (i, fst ds, snd ds)) (faces_of n)).

(** src/Accessible_mesh.cpp:390-407: which faces to extrude from *)
Definition empty_faces (n : nat) (force : bool) (js : joined) : list face :=
  flat_map (fun i => match tree_of (j_st js) i with
                     | Some _ => bare_faces n js i
                     | None => if force then bare_faces n js i else []
                     end) (container (j_st js) true).

(** src/Accessible_mesh.cpp:410-427: the element extruded from one face, and its connection with the element of the face *)
Definition extrude_one (f : face) (js : joined) : joined :=
  let o := length (s_elems (j_st js)) in
  let l := Ext (fst (fst f)) o (snd (fst f)) (snd f) in
  let js := add_link l (mk_joined (mk_state (s_tree (j_st js)) (s_elems (j_st js) ++ [mk_elem None true 0%Z false])) (j_links js) (j_extr js) (j_face js)) in
  mk_joined (j_st js) (j_links js) (j_extr js ++ [l]) (j_face js).

(** src/Accessible_mesh.cpp:334-616 [extrude] *)
Definition extrude (n : nat) (force : bool) (sides : joined -> list (list face)) (js : joined) : joined :=
  let js := fold_left (fun js f => extrude_one f js) (empty_faces n force js) js in
  fold_left (fun js fs => add_link (Side fs) js) (sides js) js.

(** include/Mesh_by_type.hpp:175-190 [connect_empty]: one element *)
Definition connect_empty (n i : nat) (js : joined) : joined :=
  fold_left (fun js f => add_link (match tree_of (j_st js) i with Some _ => Bnd i (snd (fst f)) (snd f) | None => Side [f] end) js) (bare_faces n js i) js.

(** src/Accessible_mesh.cpp:618-632 [connect_rest] *)
Definition connect_rest (n : nat) (js : joined) : joined :=
  fold_left (fun js i => connect_empty n i js) (container (j_st js) false ++ container (j_st js) true) js.

(** src/Accessible_mesh.cpp:240-244 [disconnect_boundary] for the boundary condition of the surface, which the faces [surf_bc]
    of extruded elements have *)
Definition disconnect_surface (surf_bc : face -> bool) (js : joined) : joined :=
  let gone := fun l => match l with Side [f] => surf_bc f | _ => false end in
  mk_joined (j_st js) (filter (fun l => negb (gone l)) (j_links js)) (j_extr js)
            (fun f => j_face js f && negb (existsb (fun l => gone l && existsb (face_eqb f) (uses l)) (j_links js))).

(** src/Accessible_mesh.cpp:1129-1319 [update] *)
Definition update_layer (fuel n : nat) (surf : path -> bool) (away : path -> list bool -> bool) (order : nat -> state -> list nat)
  (ref unref : nat -> bool) (sides : joined -> list (list face)) (js : joined) : outcome joined :=
  let! js := update_joined fuel n surf away order ref unref js in
  Ok (connect_rest n (extrude n false sides js)).

(** src/Accessible_mesh.cpp:704-727 [set_surface] *)
Definition surface_layer (fuel n : nat) (surf : path -> bool) (start : path) (away : path -> list bool -> bool)
  (order : nat -> state -> list nat) (sides : joined -> list (list face)) (js : joined) : outcome joined :=
  let! js := surface_joined fuel n surf start away order js in
  Ok (connect_rest n (extrude n false sides js)).

(** src/Case.cpp:291-302 [split_layers] with one value of [sides] for every new layer *)
Definition split_layers (n : nat) (surf_bc : face -> bool) (layers : list (joined -> list (list face))) (js : joined) : joined :=
  connect_rest n (fold_left (fun js sides => extrude n true sides js) layers (disconnect_surface surf_bc js)).
