(** What the mesh properties are about: which faces take part in which connections. *)
From Coq Require Import ZArith List Bool Reals Permutation.
From Verif Require Import Outcome Connection_Model Mesh_Model.
Import ListNotations.
Local Open Scope Z_scope.

(** A face of an element: number [2*dimension + sign]. *)
Definition face := (addr * nat)%type.
Definition face_number (dimension : nat) (sign : bool) : nat := (2 * dimension + if sign then 1 else 0)%nat.
Definition addr_dec (a b : addr) : {a = b} + {a <> b}.
Proof. decide equality; [apply Z.eq_dec|apply bool_dec]. Defined.
Definition face_dec (f g : face) : {f = g} + {f <> g}.
Proof. decide equality; [apply Nat.eq_dec|apply addr_dec]. Defined.

(** The faces that a connection joins, each with the part of the connection's storage that belongs to it. *)
Definition con_ends (c : con) : list (face * storage) :=
  [((c_elem0 c, face_number (dim0 (c_dir c)) (sign0 (c_dir c))), (c_id c, 0%nat));
   ((c_elem1 c, face_number (dim1 (c_dir c)) (sign1 (c_dir c))), (c_id c, 1%nat))].
(** The coarse element is on side 1 of a reversed connection, the fine ones on side 0, and the other way around otherwise. *)
Definition ref_ends (c : ref_con) : list (face * storage) :=
  let d := r_dir c in
  let side0 := face_number (dim0 d) (sign0 d) in
  let side1 := face_number (dim1 d) (sign1 d) in
  ((r_coarse c, if r_rev c then side1 else side0), (r_id c, 0%nat))
  :: map (fun k => ((nth k (r_fine c) (false, 0), if r_rev c then side0 else side1), (r_id c, S k))) (seq 0 (length (r_fine c))).
Definition bound_ends (c : bound_con) : list (face * storage) := [((b_elem c, face_number (b_dim c) (b_sign c)), (b_id c, 0%nat))].
Definition type_ends (t : by_type) : list (face * storage) :=
  flat_map con_ends (cons t) ++ flat_map bound_ends (bounds t) ++ flat_map ref_ends (concat (refs t)).
Definition ends (m : mesh) : list (face * storage) := type_ends (car m) ++ type_ends (def m).

(** How many connections a face takes part in. *)
Definition uses (m : mesh) (f : face) : nat := count_occ face_dec (map fst (ends m)) f.
(** All faces of all elements. *)
Definition all_faces (m : mesh) : list face := flat_map (fun a => map (fun i => (a, i)) (seq 0 (2 * n_dim m))) (elements m).
Definition total {A} (f : A -> nat) (l : list A) : nat := fold_right Nat.add 0%nat (map f l).

(** Meshes that can be obtained by calling the operations of the interface on an empty mesh, whether they are refused or not. *)
Inductive reachable (nd : nat) (cov : option (addr -> nat -> bool)) : mesh -> Prop :=
| reach_new : reachable nd cov (new_mesh nd cov)
| reach_done : forall m o m', reachable nd cov m -> call o m = Done m' tt -> reachable nd cov m'
| reach_refused : forall m o m', reachable nd cov m -> call o m = Refused m' -> reachable nd cov m'.
(** ... by calls that are never refused and never connect a face that already is connected *)
Inductive reachable_once (nd : nat) (cov : option (addr -> nat -> bool)) : mesh -> Prop :=
| once_new : reachable_once nd cov (new_mesh nd cov)
| once_done : forall m o m', reachable_once nd cov m -> call o m = Done m' tt -> (forall f, (uses m' f <= 1)%nat) -> reachable_once nd cov m'.

(** The same elements and connections. *)
Definition same_elements (m m' : mesh) : Prop := n_dim m' = n_dim m /\ elems (car m') = elems (car m) /\ elems (def m') = elems (def m).
Definition same_connections (m m' : mesh) : Prop :=
  cons (car m') = cons (car m) /\ cons (def m') = cons (def m) /\ refs (car m') = refs (car m) /\ refs (def m') = refs (def m)
  /\ bounds (car m') = bounds (car m) /\ bounds (def m') = bounds (def m).
(** Elements taking part in a connection. *)
Definition touches (m : mesh) (a : addr) : Prop := exists i, In (a, i) (map fst (ends m)).

(** Connections irrespective of the objects that hold them, with elements renamed. *)
Definition rename_con (p : addr -> addr) (c : con) : addr * addr * direction := (p (c_elem0 c), p (c_elem1 c), c_dir c).
Definition rename_ref (p : addr -> addr) (order : ref_con -> list addr) (c : ref_con) : addr * list addr * direction * bool * list bool :=
  (p (r_coarse c), map p (order c), r_dir c, r_rev c, r_str c).
Definition rename_bound (p : addr -> addr) (c : bound_con) : addr * nat * bool * Z := (p (b_elem c), b_dim c, b_sign c, b_bc c).
Definition plain_con := rename_con (fun a => a).
Definition plain_ref := rename_ref (fun a => a) r_fine.
Definition plain_bound := rename_bound (fun a => a).
Definition both_deformed (c : con) : bool := (fst (c_elem0 c) && fst (c_elem1 c))%bool.

(** [m'] is a copy of [m] in which the element [a] is called [p a]: the same elements in the same order, and the same connections between
    them, except that the fine elements of refined connections of deformed elements are in the order [order]. Conformal connections between
    two deformed elements are held by the container of deformed elements. *)
Definition copy_with (order : ref_con -> list addr) (p : addr -> addr) (m m' : mesh) : Prop :=
  n_dim m' = n_dim m
  /\ (forall a b, In a (elements m) -> In b (elements m) -> p a = p b -> a = b)
  /\ elements m' = map p (elements m)
  /\ map snd (elems (car m')) = map snd (elems (car m)) /\ map snd (elems (def m')) = map snd (elems (def m))
  /\ map plain_con (cons (car m')) = map (rename_con p) (filter (fun c => negb (both_deformed c)) (cons (car m)))
  /\ map plain_con (cons (def m')) = map (rename_con p) (filter both_deformed (cons (car m)) ++ cons (def m))
  /\ map (map plain_ref) (refs (car m')) = map (map (rename_ref p r_fine)) (refs (car m))
  /\ map (map plain_ref) (refs (def m')) = map (map (rename_ref p order)) (refs (def m))
  /\ map plain_bound (bounds (car m')) = map (rename_bound p) (bounds (car m))
  /\ map plain_bound (bounds (def m')) = map (rename_bound p) (bounds (def m)).
Definition copy (p : addr -> addr) (m m' : mesh) : Prop := copy_with r_fine p m m'.

(** The position of an element in its container: the name it has in a mesh read from a file. *)
Fixpoint position (sn : Z) (l : list (Z * element)) (i : Z) : Z :=
  match l with [] => 0 | e :: l => if fst e =? sn then i else position sn l (i + 1) end.
Definition renumber (m : mesh) (a : addr) : addr := (fst a, position (snd a) (elems (of_type (fst a) m)) 0).

(** The order in which the constructor of refined connections stores the elements it is given (C47). *)
Definition reorder (nd : nat) (c : ref_con) : list addr :=
  match refined_connection nd (r_dir c) (r_rev c) (r_str c) (length (r_fine c)) with
  | Ok r => map (fun i => nth i (r_fine c) (false, 0)) (fine_cons r)
  | _ => []
  end.

(** Meshes a file can represent: boundary conditions exist; refined connections with a Cartesian interface have a Cartesian element; elements are
    stretched in dimensions of their faces only. *)
Record storable (m : mesh) (bcs : nat) : Prop := {
  st_bc : forall c, In c (bounds (car m) ++ bounds (def m)) -> b_bc c < Z.of_nat bcs;
  st_car : forall l c, In l (refs (car m)) -> In c l -> exists a, In a (r_coarse c :: r_fine c) /\ fst a = false;
  st_str : forall l c k, In l (refs (def m)) -> In c l -> nth k (r_str c) false = true -> (k < n_dim m - 1)%nat }.

(** What remains of a container when the elements that satisfy [gone] are deleted, and of its boundary connections those whose face
    is [covered]. *)
Definition remaining (gone : addr -> bool) (cov : addr -> nat -> bool) (is_def : bool) (t t' : by_type) : Prop :=
  elems t' = filter (fun e => negb (gone (is_def, fst e))) (elems t)
  /\ cons t' = filter (fun c => negb (gone (c_elem0 c) || gone (c_elem1 c))) (cons t)
  /\ refs t' = map (filter (fun c => negb (gone (r_coarse c) || existsb gone (r_fine c)))) (refs t)
  /\ bounds t' = filter (fun c => negb (cov (b_elem c) (face_number (b_dim c) (b_sign c)) || gone (b_elem c))) (bounds t).
