(** Model of the elements and connections of a mesh: include/Mesh_by_type.hpp, src/Accessible_mesh.cpp:139-277, 619-634, 1102-1117,
    1500-1775 and the constructors and destructors of include/connection.hpp.

    Simplifications:
    - an element is identified by its container (Cartesian or deformed) and its serial number, which is permanent (C15);
      [Element_container::at] is a search in the list of the elements of the container;
    - vertices are left out: merging them at connections is the subject of C14, C18 and C47, their positions are not part
      of the model; so are face normals, which are handled just like the face data;
    - the tree is left out, except for the one question [purge_connections] asks it, whether a boundary face has been covered
      (a tree neighbor with an element), which is a function given with the mesh; its file format is the subject of C12;
    - [extrude], [update] and [extrude_cons] are left out;
    - [int] does not overflow. *)
From Coq Require Import ZArith List Bool Reals.
From Verif Require Import Outcome Math_Model Connection_Model.
Import ListNotations.
Local Open Scope Z_scope.

(** the container (is it deformed?) and the serial number, include/Mesh.hpp:208 *)
Definition addr := (bool * Z)%type.
Definition addr_eqb (a b : addr) : bool := eqb (fst a) (fst b) && (snd a =? snd b).

(** include/Element.hpp: refinement level, nominal position, node adjustments (deformed elements only) *)
Record element := mk_element { e_level : Z; e_pos : list Z; e_warp : list R }.

(** Element_face_connection, connection.hpp:103-137; an [c_id] identifies the object, i.e. its storage *)
Record con := mk_con { c_id : nat; c_elem0 : addr; c_elem1 : addr; c_dir : direction }.
Definition c_elem (c : con) (side : bool) : addr := if side then c_elem1 c else c_elem0 c.
(** Refined_connection, connection.hpp:171-286; [r_fine] are the elements of [connection(0)], [connection(1)], ... *)
Record ref_con := mk_ref { r_id : nat; r_coarse : addr; r_fine : list addr; r_dir : direction; r_rev : bool; r_str : list bool }.
(** Typed_bound_connection, connection.hpp:333-390 *)
Record bound_con := mk_bound { b_id : nat; b_elem : addr; b_dim : nat; b_sign : bool; b_bc : Z }.
(** Typed_bound_connection::direction, connection.hpp:381 *)
Definition b_dir (c : bound_con) : direction := mk_dir (b_dim c) (b_dim c) (b_sign c) (negb (b_sign c)).

(** Mesh_by_type, Mesh_by_type.hpp:44-62. [elems] in order of creation with serial numbers, [refs] is [ref_face_cons]. *)
Record by_type := mk_type { next_sn : Z; elems : list (Z * element); cons : list con; refs : list (list ref_con); bounds : list bound_con }.

(** face data of an element: which connection object it points into, and which part of it (0: side 0, 1: side 1 of a conformal
    connection; 0: inside of a boundary connection; 0: coarse face, [S i]: [i]th fine face of a refined connection) *)
Definition storage := (nat * nat)%type.

(** Accessible_mesh, Accessible_mesh.hpp; [covered]: see above, [None] without tree *)
Record mesh := mk_mesh {
  n_dim : nat; car : by_type; def : by_type; n_bc : Z; covered : option (addr -> nat -> bool);
  face_record : addr -> nat -> Z; faces : addr -> nat -> option storage; record : addr -> Z; next_id : nat }.

Definition with_type (is_def : bool) (t : by_type) (m : mesh) : mesh :=
  mk_mesh (n_dim m) (if is_def then car m else t) (if is_def then t else def m) (n_bc m) (covered m) (face_record m) (faces m) (record m) (next_id m).
Definition of_type (is_def : bool) (m : mesh) : by_type := if is_def then def m else car m.
Definition with_face_record (f : addr -> nat -> Z) (m : mesh) : mesh :=
  mk_mesh (n_dim m) (car m) (def m) (n_bc m) (covered m) f (faces m) (record m) (next_id m).
Definition with_faces (f : addr -> nat -> option storage) (m : mesh) : mesh :=
  mk_mesh (n_dim m) (car m) (def m) (n_bc m) (covered m) (face_record m) f (record m) (next_id m).
Definition with_record (f : addr -> Z) (m : mesh) : mesh :=
  mk_mesh (n_dim m) (car m) (def m) (n_bc m) (covered m) (face_record m) (faces m) f (next_id m).
Definition with_id (i : nat) (m : mesh) : mesh :=
  mk_mesh (n_dim m) (car m) (def m) (n_bc m) (covered m) (face_record m) (faces m) (record m) i.
Definition with_cons (l : list con) (t : by_type) : by_type := mk_type (next_sn t) (elems t) l (refs t) (bounds t).
Definition with_refs (l : list (list ref_con)) (t : by_type) : by_type := mk_type (next_sn t) (elems t) (cons t) l (bounds t).
Definition with_bounds (l : list bound_con) (t : by_type) : by_type := mk_type (next_sn t) (elems t) (cons t) (refs t) l.
Definition with_elems (n : Z) (l : list (Z * element)) (t : by_type) : by_type := mk_type n l (cons t) (refs t) (bounds t).

(** a two-dimensional array with one entry changed *)
Definition put2 {A} (f : addr -> nat -> A) (a : addr) (i : nat) (x : A) : addr -> nat -> A :=
  fun b j => if (addr_eqb b a && Nat.eqb j i)%bool then x else f b j.

(** What an operation does: it returns, throws an exception (leaving the mesh behind), or has undefined behaviour. *)
Inductive result (A : Type) : Type :=
| Done (m : mesh) (a : A)
| Refused (m : mesh)
| Undefined.
Arguments Done {A} m a.
Arguments Refused {A} m.
Arguments Undefined {A}.
Definition then_ {A B} (x : result A) (f : mesh -> A -> result B) : result B :=
  match x with Done m a => f m a | Refused m => Refused m | Undefined => Undefined end.

(** constructor, Accessible_mesh.cpp:139-148: an empty mesh *)
Definition empty_type : by_type := mk_type 0 [] [] [[]; []; []] [].
Definition new_mesh (nd : nat) (cov : option (addr -> nat -> bool)) : mesh :=
  mk_mesh nd empty_type empty_type 0 cov (fun _ _ => 0) (fun _ _ => None) (fun _ => 0) 0.

(** elements(), Accessible_mesh.hpp: the Cartesian elements followed by the deformed ones *)
Definition addrs (is_def : bool) (t : by_type) : list addr := map (fun e => (is_def, fst e)) (elems t).
Definition elements (m : mesh) : list addr := addrs false (car m) ++ addrs true (def m).

(** Complete_element_container::at, Element_container.hpp:64-71 *)
Definition at_ (m : mesh) (is_def : bool) (level sn : Z) : option addr :=
  match find (fun e => fst e =? sn) (elems (of_type is_def m)) with
  | Some e => if e_level (snd e) =? level then Some (is_def, sn) else None
  | None => None
  end.

(** Element::set_face, Element.cpp:185: [std::array] of 6 *)
Definition set_face (a : addr) (i_face : nat) (s : option storage) (m : mesh) : option mesh :=
  if (i_face <? 6)%nat then Some (with_faces (put2 (faces m) a i_face s) m) else None.

(** add_element, Accessible_mesh.cpp:156-162, Element_container.hpp:57-62, Element.cpp:21-22; a new element has record 0
    (Element.hpp:51) and no face data. [add_element] leaves the node adjustments 0, see Deformed_element.cpp. *)
Definition add_element (is_def : bool) (level : Z) (pos : list Z) (m : mesh) : result Z :=
  let t := of_type is_def m in
  let sn := next_sn t in
  let a := (is_def, sn) in
  let t := with_elems (sn + 1) (elems t ++ [(sn, mk_element level pos [])]) t in
  let m := with_type is_def t m in
  let m := with_faces (fun b j => if addr_eqb b a then None else faces m b j) m in
  let m := with_face_record (fun b j => if addr_eqb b a then 0 else face_record m b j) m in
  Done (with_record (fun b => if addr_eqb b a then 0 else record m b) m) sn.

(** Element_face_connection constructor, connection.hpp:112-124; the vertex lists of a face whose dimension does not exist
    are computed by a division by zero (connection.cpp:35). Appended to [cons] of the container. *)
Definition new_con (is_def : bool) (a0 a1 : addr) (d : direction) (m : mesh) : result unit :=
  if ((dim0 d <? n_dim m) && (dim1 d <? n_dim m))%nat%bool then
    match set_face a0 (i_face d false) (Some (next_id m, 0%nat)) m with
    | Some m1 =>
        match set_face a1 (i_face d true) (Some (next_id m, 1%nat)) m1 with
        | Some m2 =>
            let t := of_type is_def m2 in
            Done (with_id (S (next_id m)) (with_type is_def (with_cons (cons t ++ [mk_con (next_id m) a0 a1 d]) t) m2)) tt
        | None => Undefined
        end
    | None => Undefined
    end
  else Undefined.

(** Typed_bound_connection constructor, connection.hpp:347-359 *)
Definition new_bound (is_def : bool) (a : addr) (i_dimension : nat) (sign : bool) (bc : Z) (m : mesh) : result unit :=
  let c := mk_bound (next_id m) a i_dimension sign bc in
  match set_face a (i_face (b_dir c) false) (Some (next_id m, 0%nat)) m with
  | Some m => let t := of_type is_def m in
      Done (with_id (S (next_id m)) (with_type is_def (with_bounds (bounds t ++ [c]) t) m)) tt
  | None => Undefined
  end.

(** Refined_connection constructor, connection.hpp:228-270: the coarse face is set before the number of fine elements is checked.
    The fine elements of the fine connections are those of [refined_connection] of Connection_Model.v (C47). Appended to
    [ref_face_cons[slot]] of the container. *)
Fixpoint set_fine (l : list addr) (i_face : nat) (id k : nat) (m : mesh) : option mesh :=
  match l with
  | [] => Some m
  | a :: l => match set_face a i_face (Some (id, S k)) m with Some m => set_fine l i_face id (S k) m | None => None end
  end.
Fixpoint append_at {A} (i : nat) (x : A) (l : list (list A)) : option (list (list A)) :=
  match l, i with
  | [], _ => None
  | y :: l, O => Some ((y ++ [x]) :: l)
  | y :: l, S i => match append_at i x l with Some l => Some (y :: l) | None => None end
  end.
(** the elements of a vector at the given indices *)
Fixpoint select {A} (l : list A) (inds : list nat) : option (list A) :=
  match inds with
  | [] => Some []
  | i :: inds => match nth_error l i, select l inds with Some x, Some r => Some (x :: r) | _, _ => None end
  end.
Definition new_ref (is_def : bool) (slot : nat) (coarse : addr) (fine : list addr) (d : direction) (rev : bool) (str : list bool) (m : mesh) : result unit :=
  if (slot <? 3)%nat then
    if ((dim0 d <? n_dim m) && (dim1 d <? n_dim m))%nat%bool then
      let id := next_id m in
      match set_face coarse (i_face d rev) (Some (id, 0%nat)) m with
      | Some m1 =>
          match refined_connection (n_dim m) d rev str (length fine) with
          | Ok r =>
              match select fine (fine_cons r) with
              | Some l =>
                  match set_fine l (i_face d (negb rev)) id 0 m1 with
                  | Some m2 =>
                      let t := of_type is_def m2 in
                      match append_at slot (mk_ref id coarse l d rev str) (refs t) with
                      | Some rs => Done (with_id (S id) (with_type is_def (with_refs rs t) m2)) tt
                      | None => Undefined
                      end
                  | None => Undefined
                  end
              | None => Undefined
              end
          | Throw => Refused (with_id (S id) m1)
          | _ => Undefined
          end
      | None => Undefined
      end
    else Undefined
  else Undefined.

(** connect_cartesian, Accessible_mesh.cpp:174-179 *)
Definition connect_cartesian (level sn0 sn1 : Z) (i_dimension : nat) (def0 def1 : bool) (m : mesh) : result unit :=
  match at_ m def0 level sn0, at_ m def1 level sn1 with
  | Some a0, Some a1 => new_con false a0 a1 (cart_to_dir i_dimension) m
  | _, _ => Refused m
  end.

(** connect_deformed, Accessible_mesh.cpp:181-191 *)
Definition connect_deformed (level sn0 sn1 : Z) (d : direction) (m : mesh) : result unit :=
  if ((dim0 d =? dim1 d)%nat && eqb (sign0 d) (sign1 d))%bool then Refused m else
  match at_ m true level sn0, at_ m true level sn1 with
  | Some a0, Some a1 => new_con true a0 a1 d m
  | _, _ => Refused m
  end.

(** the fine elements of connect_hanging: [Throw] if one can not be found, [Ub] if the vectors are too short *)
Fixpoint find_fine (m : mesh) (level : Z) (n : nat) (sns : list Z) (defs : list bool) : outcome (list addr) :=
  match n with
  | O => Ok []
  | S n =>
      match sns, defs with
      | sn :: sns, d :: defs =>
          match at_ m d level sn with
          | Some a => let! l := find_fine m level n sns defs in Ok (a :: l)
          | None => Throw
          end
      | _, _ => Ub
      end
  end.
(** connect_hanging, Accessible_mesh.cpp:193-219 *)
Definition connect_hanging (level sn : Z) (fine_sn : list Z) (d : direction) (coarse_def : bool) (fine_def : list bool) (str : list bool) (m : mesh) : result unit :=
  let is_car := fold_left (fun is_car f => (is_car || negb f)%bool) fine_def (negb coarse_def) in
  if is_car then
    match at_ m coarse_def level sn with
    | Some coarse =>
        match find_fine m (level + 1) (2 ^ n_dim m / 2) fine_sn fine_def with
        | Ok fine =>
            if (negb (dim0 d =? dim1 d)%nat || eqb (sign0 d) (sign1 d))%bool then Refused m
            else new_ref false (n_dim m - 1) coarse fine (cart_to_dir (dim0 d)) (sign1 d) [false; false] m
        | Throw => Refused m
        | _ => Undefined
        end
    | None => Refused m
    end
  else
    match at_ m true level sn with
    | Some coarse =>
        match find_fine m (level + 1) (length fine_sn) fine_sn (map (fun _ => true) fine_sn) with
        | Ok fine =>
            match log_int 2 (Z.of_nat (length fine_sn)) with
            | Ok slot => new_ref true (Z.to_nat slot) coarse fine d false str m
            | _ => Undefined
            end
        | Throw => Refused m
        | _ => Undefined
        end
    | None => Refused m
    end.

(** add_boundary_condition, Accessible_mesh.cpp:221-227 *)
Definition add_boundary_condition (m : mesh) : result Z :=
  Done (mk_mesh (n_dim m) (car m) (def m) (n_bc m + 1) (covered m) (face_record m) (faces m) (record m) (next_id m)) (n_bc m).

(** connect_boundary, Accessible_mesh.cpp:229-238 *)
Definition connect_boundary (level : Z) (is_def : bool) (sn : Z) (i_dimension : nat) (sign : bool) (bc : Z) (m : mesh) : result unit :=
  if bc <? n_bc m then
    match at_ m is_def level sn with
    | Some a => new_bound is_def a i_dimension sign bc m
    | None => Refused m
    end
  else Refused m.

(** destructors of the connections, connection.hpp:127-133, 189-192, 273-277, 362-366; called when [erase_if] (C16) drops them *)
Definition clear (a : addr) (i_face : nat) (m : mesh) : mesh := with_faces (put2 (faces m) a i_face None) m.
Definition drop_bound (c : bound_con) (m : mesh) : mesh := clear (b_elem c) (i_face (b_dir c) false) m.
Definition drop_con (c : con) (m : mesh) : mesh := clear (c_elem1 c) (i_face (c_dir c) true) (clear (c_elem0 c) (i_face (c_dir c) false) m).
Definition drop_ref (c : ref_con) (m : mesh) : mesh :=
  fold_left (fun m a => clear a (i_face (r_dir c) (negb (r_rev c))) m) (r_fine c) (clear (r_coarse c) (i_face (r_dir c) (r_rev c)) m).
Definition erase_bounds (p : bound_con -> bool) (is_def : bool) (m : mesh) : mesh :=
  let t := of_type is_def m in
  fold_left (fun m c => drop_bound c m) (filter p (bounds t)) (with_type is_def (with_bounds (filter (fun c => negb (p c)) (bounds t)) t) m).
Definition erase_cons (p : con -> bool) (is_def : bool) (m : mesh) : mesh :=
  let t := of_type is_def m in
  fold_left (fun m c => drop_con c m) (filter p (cons t)) (with_type is_def (with_cons (filter (fun c => negb (p c)) (cons t)) t) m).
Definition erase_refs (p : ref_con -> bool) (is_def : bool) (m : mesh) : mesh :=
  let t := of_type is_def m in
  fold_left (fun m c => drop_ref c m) (filter p (concat (refs t))) (with_type is_def (with_refs (map (filter (fun c => negb (p c))) (refs t)) t) m).

(** disconnect_boundary, Accessible_mesh.cpp:240-244 *)
Definition disconnect_boundary (bc : Z) (m : mesh) : mesh :=
  let p c := b_bc c =? bc in erase_bounds p true (erase_bounds p false m).

(** record_connections, Mesh_by_type.hpp:158-181: [None] if an array or vector is read outside of its bounds *)
Definition count_face (a : addr) (i_face : nat) (f : addr -> nat -> Z) : option (addr -> nat -> Z) :=
  if (i_face <? 6)%nat then Some (put2 f a i_face (f a i_face + 1)) else None.
Fixpoint run_list {A S} (step : A -> S -> option S) (l : list A) (s : S) : option S :=
  match l with [] => Some s | x :: l => match step x s with Some s => run_list step l s | None => None end end.
Definition count_con (c : con) (f : addr -> nat -> Z) : option (addr -> nat -> Z) :=
  run_list (fun side f => count_face (c_elem c side) (i_face (c_dir c) side) f) [false; true] f.
Definition count_bound (c : bound_con) (f : addr -> nat -> Z) : option (addr -> nat -> Z) :=
  count_face (b_elem c) (i_face (b_dir c) false) f.
(** n_fine, Mesh_by_type.hpp:57 *)
Definition n_fine (i : nat) : nat := nth i [1; 2; 4]%nat 0%nat.
Definition count_ref (slot : nat) (c : ref_con) (f : addr -> nat -> Z) : option (addr -> nat -> Z) :=
  match nth_error (r_fine c) 0 with (* [connection(0)], whose side [rev] is the coarse element *)
  | Some _ =>
      match count_face (r_coarse c) (i_face (r_dir c) (r_rev c)) f with
      | Some f =>
          run_list (fun i f =>
            match nth_error (r_fine c) i with
            | Some a => count_face a (i_face (r_dir c) (negb (r_rev c))) f
            | None => None
            end) (seq 0 (n_fine slot)) f
      | None => None
      end
  | None => None
  end.
Definition record_connections (is_def : bool) (m : mesh) : option mesh :=
  let t := of_type is_def m in
  match run_list count_con (cons t) (face_record m) with
  | Some f =>
      match run_list count_bound (bounds t) f with
      | Some f =>
          match run_list (fun slot f => run_list (count_ref slot) (nth slot (refs t) []) f) [0; 1; 2]%nat f with
          | Some f => Some (with_face_record f m)
          | None => None
          end
      | None => None
      end
  | None => None
  end.

(** initialize the number of connections of each face to 0, Accessible_mesh.cpp:258-262, 624-628 *)
Definition reset_face_record (m : mesh) : mesh :=
  with_face_record (fold_left (fun f a => fold_left (fun f i => put2 f a i 0) (seq 0 (2 * n_dim m)) f) (elements m) (face_record m)) m.

(** valid, Accessible_mesh.cpp:253-277: the numbers of redundant and of missing connections *)
Definition valid (m : mesh) : result (Z * Z) :=
  match record_connections false (reset_face_record m) with
  | Some m =>
      match record_connections true m with
      | Some m => Done m
          (fold_left (fun n a => fold_left (fun n i => if 1 <? face_record m a i then n + (face_record m a i - 1) else n) (seq 0 (2 * n_dim m)) n) (elements m) 0,
           fold_left (fun n a => fold_left (fun n i => if face_record m a i =? 0 then n + 1 else n) (seq 0 (2 * n_dim m)) n) (elements m) 0)
      | None => Undefined
      end
  | None => Undefined
  end.

(** connect_empty, Mesh_by_type.hpp:184-200 *)
Definition connect_empty (is_def : bool) (bc : Z) (m : mesh) : result unit :=
  fold_left (fun r a =>
    fold_left (fun r i_dimension =>
      fold_left (fun r (sign : bool) =>
        then_ r (fun m _ =>
          if face_record m a (2 * i_dimension + Nat.b2n sign)%nat =? 0 then new_bound is_def a i_dimension sign bc m else Done m tt))
      [false; true] r) (seq 0 (n_dim m)) r)
  (addrs is_def (of_type is_def m)) (Done m tt).

(** connect_rest, Accessible_mesh.cpp:619-634 *)
Definition connect_rest (bc : Z) (m : mesh) : result unit :=
  match record_connections false (reset_face_record m) with
  | Some m =>
      match record_connections true m with
      | Some m => then_ (connect_empty false bc m) (fun m _ => connect_empty true bc m)
      | None => Undefined
      end
  | None => Undefined
  end.

(** purge_connections with the default predicate, Mesh_by_type.hpp:204-226 *)
Definition purge_connections (is_def : bool) (m : mesh) : mesh :=
  let gone a := negb (record m a =? 0) in
  let cov c := match covered m with Some cov => cov (b_elem c) (i_face (b_dir c) false) | None => false end in
  let m := erase_bounds (fun c => (cov c || gone (b_elem c))%bool) is_def m in
  let m := erase_cons (fun c => (gone (c_elem0 c) || gone (c_elem1 c))%bool) is_def m in
  erase_refs (fun c => (gone (r_coarse c) || existsb gone (r_fine c))%bool) is_def m.

(** Complete_element_container::purge, Element_container.hpp:82-96 *)
Definition purge_elems (is_def : bool) (m : mesh) : mesh :=
  let t := of_type is_def m in
  with_type is_def (with_elems (next_sn t) (filter (fun e => record m (is_def, fst e) =? 0) (elems t)) t) m.

(** purge and with it cleanup, Accessible_mesh.cpp:1102-1117, 246-251 *)
Definition purge (m : mesh) : mesh :=
  match covered m with
  | Some _ => purge_elems true (purge_elems false (purge_connections true (purge_connections false m)))
  | None => m
  end.

(** writing the array [node_adjustments()] of a deformed element, Deformed_element.cpp:169 *)
Definition set_warp (sn : Z) (warp : list R) (m : mesh) : mesh :=
  let t := def m in
  with_type true (with_elems (next_sn t) (map (fun e => if fst e =? sn then (fst e, mk_element (e_level (snd e)) (e_pos (snd e)) warp) else e) (elems t)) t) m.

(** ** Mesh files *)

(** The tables of a mesh file that concern elements, connections and face warping; the rows of the connection tables are arrays of [int]. *)
Record file := mk_file {
  f_dim : nat; f_elems : list (Z * list Z * bool); f_cons : list (list Z); f_refs : list (list Z); f_bounds : list (list Z);
  f_warp : list (Z * list R) }.

(** position of an element in [elements()]: what write() stores in [record], Accessible_mesh.cpp:1532-1545 *)
Fixpoint index (a : addr) (l : list addr) (i : Z) : Z :=
  match l with [] => 0 | b :: l => if addr_eqb a b then i else index a l (i + 1) end.
Definition number_elements (m : mesh) : mesh :=
  with_record (fun a => if existsb (addr_eqb a) (elements m) then index a (elements m) 0 else record m a) m.

Definition dim_z (d : direction) (side : bool) : Z := Z.of_nat (i_dim d side).
Definition sign_z (d : direction) (side : bool) : Z := Z.b2z (face_sign d side).
(** WRITE_CONS, Accessible_mesh.cpp:1553-1563 *)
Definition write_con (m : mesh) (c : con) : list Z :=
  [record m (c_elem0 c); record m (c_elem1 c); dim_z (c_dir c) false; dim_z (c_dir c) true; sign_z (c_dir c) false; sign_z (c_dir c) true].
(** WRITE_REF_CONS, Accessible_mesh.cpp:1573-1594; the table has room for 4 fine elements *)
Definition write_ref (m : mesh) (c : ref_con) : list Z :=
  let fine := firstn 4 (map (record m) (r_fine c) ++ [-1; -1; -1; -1]) in
  let side s := if r_rev c then negb s else s in
  record m (r_coarse c) :: fine ++ map Z.b2z (r_str c)
  ++ [dim_z (r_dir c) (side false); dim_z (r_dir c) (side true); sign_z (r_dir c) (side false); sign_z (r_dir c) (side true)].
(** Accessible_mesh.cpp:1603-1611 *)
Definition write_bound (m : mesh) (c : bound_con) : list Z := [record m (b_elem c); b_bc c; Z.of_nat (b_dim c); Z.b2z (b_sign c)].
(** write, Accessible_mesh.cpp:1500-1651 *)
Definition write (m : mesh) : mesh * file :=
  let m := number_elements m in
  (m, mk_file (n_dim m)
    (map (fun e => (e_level (snd e), e_pos (snd e), false)) (elems (car m)) ++ map (fun e => (e_level (snd e), e_pos (snd e), true)) (elems (def m)))
    (map (write_con m) (cons (car m) ++ cons (def m)))
    (map (write_ref m) (concat (refs (car m)) ++ concat (refs (def m))))
    (map (write_bound m) (bounds (car m) ++ bounds (def m)))
    (map (fun e => (record m (true, fst e), e_warp (snd e))) (elems (def m)))).

(** elem_ptrs[i], with [i] an [int] *)
Definition ptr (l : list addr) (i : Z) : option addr := if i <? 0 then None else nth_error l (Z.to_nat i).
Definition nonzero (x : Z) : bool := negb (x =? 0).
(** a dimension index, which is an [int] in the file *)
Definition to_dim (x : Z) : option nat := if x <? 0 then None else Some (Z.to_nat x).

(** reading the elements, Accessible_mesh.cpp:1668-1683: the mesh and [elem_ptrs] *)
Fixpoint read_elems (l : list (Z * list Z * bool)) (m : mesh) (ptrs : list addr) : result (list addr) :=
  match l with
  | [] => Done m ptrs
  | (level, pos, d) :: l => then_ (add_element d level pos m) (fun m sn => read_elems l m (ptrs ++ [(d, sn)]))
  end.
(** Accessible_mesh.cpp:1709-1721 *)
Definition read_con (ptrs : list addr) (row : list Z) (m : mesh) : result unit :=
  match row with
  | [i0; i1; d0; d1; s0; s1] =>
      match ptr ptrs i0, ptr ptrs i1, to_dim d0, to_dim d1 with
      | Some a0, Some a1, Some d0, Some d1 =>
          if (fst a0 && fst a1)%bool then new_con true a0 a1 (mk_dir d0 d1 (nonzero s0) (nonzero s1)) m
          else new_con false a0 a1 (cart_to_dir d0) m
      | _, _, _, _ => Undefined
      end
  | _ => Undefined
  end.
Fixpoint select_ptrs (ptrs : list addr) (l : list Z) : option (list addr) :=
  match l with
  | [] => Some []
  | i :: l => match ptr ptrs i, select_ptrs ptrs l with Some a, Some r => Some (a :: r) | _, _ => None end
  end.
(** Accessible_mesh.cpp:1727-1752; a Cartesian connection between elements all of which are deformed is read as a deformed one *)
Definition read_ref (ptrs : list addr) (row : list Z) (m : mesh) : result unit :=
  match row with
  | [c; f0; f1; f2; f3; st0; st1; d0; d1; s0; s1] =>
      let str := [nonzero st0; nonzero st1] in
      match pow_int 2 (Z.of_nat (n_dim m) - 1 - Z.b2z (nonzero st0) - Z.b2z (nonzero st1)) with
      | Ok n_fine =>
          match ptr ptrs c, select_ptrs ptrs (firstn (Z.to_nat n_fine) [f0; f1; f2; f3]), to_dim d0, to_dim d1 with
          | Some coarse, Some fine, Some d0, Some d1 =>
              if forallb fst (coarse :: fine) then
                match log_int 2 n_fine with
                | Ok slot => new_ref true (Z.to_nat slot) coarse fine (mk_dir d0 d1 (nonzero s0) (nonzero s1)) false str m
                | _ => Undefined
                end
              else new_ref false (n_dim m - 1) coarse fine (cart_to_dir d0) (s0 <? s1) [false; false] m
          | _, _, _, _ => Undefined
          end
      | _ => Undefined
      end
  | _ => Undefined
  end.
(** Accessible_mesh.cpp:1757-1766 *)
Definition read_bound (ptrs : list addr) (row : list Z) (m : mesh) : result unit :=
  match row with
  | [i; bc; d; s] =>
      if bc <? n_bc m then
        match ptr ptrs i, to_dim d with
        | Some a, Some d => new_bound (fst a) a d (nonzero s) bc m
        | _, _ => Undefined
        end
      else Refused m
  | _ => Undefined
  end.
(** Accessible_mesh.cpp:1771-1775 *)
Definition read_warp (ptrs : list addr) (row : Z * list R) (m : mesh) : result unit :=
  match ptr ptrs (fst row) with
  | Some (true, sn) => Done (set_warp sn (snd row) m) tt
  | Some (false, _) => Refused m
  | None => Undefined
  end.
Fixpoint run_rows {A} (step : A -> mesh -> result unit) (l : list A) (m : mesh) : result unit :=
  match l with
  | [] => Done m tt
  | x :: l => then_ (step x m) (fun m _ => run_rows step l m)
  end.
(** read_file, Accessible_mesh.cpp:1653-1777, on a mesh that has been given its boundary conditions (and its tree) *)
Definition read_file (f : file) (m : mesh) : result unit :=
  then_ (read_elems (f_elems f) m []) (fun m ptrs =>
  then_ (run_rows (read_con ptrs) (f_cons f) m) (fun m _ =>
  then_ (run_rows (read_ref ptrs) (f_refs f) m) (fun m _ =>
  then_ (run_rows (read_bound ptrs) (f_bounds f) m) (fun m _ =>
  then_ (run_rows (read_warp ptrs) (f_warp f) m) (fun m _ => Done (purge m) tt))))).
(** the constructors from a file, Accessible_mesh.cpp:1779-1806: [bcs] boundary conditions are given *)
Definition read_mesh (f : file) (bcs : nat) (cov : option (addr -> nat -> bool)) : result unit :=
  read_file f (Nat.iter bcs (fun m => match add_boundary_condition m with Done m _ => m | _ => m end) (new_mesh (f_dim f) cov)).

(** ** The public operations, as calls in a history *)
Inductive op :=
| AddElement (is_def : bool) (level : Z) (pos : list Z)
| AddBoundaryCondition
| ConnectCartesian (level sn0 sn1 : Z) (i_dimension : nat) (def0 def1 : bool)
| ConnectDeformed (level sn0 sn1 : Z) (d : direction)
| ConnectHanging (level sn : Z) (fine_sn : list Z) (d : direction) (coarse_def : bool) (fine_def : list bool) (str0 str1 : bool)
| ConnectBoundary (level : Z) (is_def : bool) (sn : Z) (i_dimension : nat) (sign : bool) (bc : Z)
| DisconnectBoundary (bc : Z)
| ConnectRest (bc : Z)
| Valid
| SetNodeAdjustments (level sn : Z) (warp : list R)
| Write
| Cleanup.
Definition ignore {A} (r : result A) : result unit := then_ r (fun m _ => Done m tt).
(** the calls of include/Mesh.hpp *)
Definition call (o : op) (m : mesh) : result unit :=
  match o with
  | AddElement d l p => ignore (add_element d l p m)
  | AddBoundaryCondition => ignore (add_boundary_condition m)
  | ConnectCartesian l a b i d0 d1 => connect_cartesian l a b i d0 d1 m
  | ConnectDeformed l a b d => connect_deformed l a b d m
  | ConnectHanging l c f d cd fd s0 s1 => connect_hanging l c f d cd fd [s0; s1] m
  | ConnectBoundary l d sn i s bc => connect_boundary l d sn i s bc m
  | DisconnectBoundary bc => Done (disconnect_boundary bc m) tt
  | ConnectRest bc => connect_rest bc m
  | Valid => ignore (valid m)
  | SetNodeAdjustments l sn w => match at_ m true l sn with Some _ => Done (set_warp sn w m) tt | None => Refused m end
  | Write => Done (fst (write m)) tt
  | Cleanup => Done (purge m) tt
  end.
