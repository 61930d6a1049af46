(** Orientation of connections between element faces.

    Sources: /repo/include/Kernel_connection.hpp (Connection_direction), /repo/include/connection.hpp (Con_dir),
    /repo/src/connection.cpp (vertex lists), /repo/include/Spatial.hpp:73-131 (Face_permutation),
    /repo/include/connection.hpp:168-286 (Refined_connection), /repo/src/Hanging_vertex_matcher.cpp. *)
From Coq Require Import Reals ZArith List Arith.
From Verif Require Import Outcome ListUtil Loop Math_Model Tensor_Model.
Import ListNotations.

(** class Connection_direction, Kernel_connection.hpp:7-11; the arrays of length 2 are functions of the side *)
Record direction := mk_dir { dim0 : nat; dim1 : nat; sign0 : bool; sign1 : bool }.
Definition i_dim (d : direction) (side : bool) : nat := if side then dim1 d else dim0 d.
Definition face_sign (d : direction) (side : bool) : bool := if side then sign1 d else sign0 d.

(** Kernel_connection.hpp:12 *)
Definition i_face (d : direction) (side : bool) : nat := 2 * i_dim d side + Nat.b2n (face_sign d side).
(** Kernel_connection.hpp:17 *)
Definition flip_normal (d : direction) (side : bool) : bool := Bool.eqb (face_sign d side) side.
(** Kernel_connection.hpp:22-27 *)
Definition flip_tangential (d : direction) : bool :=
  negb (dim0 d =? dim1 d) && Bool.eqb (flip_normal d false) (flip_normal d true).
(** Kernel_connection.hpp:33-36 *)
Definition transpose (d : direction) : bool :=
  ((dim0 d =? 0) && (dim1 d =? 2)) || ((dim0 d =? 2) && (dim1 d =? 0)).

(** Con_dir<Element>: [i_face] and the conversion to a deformed direction, connection.hpp:29-36 *)
Definition cart_i_face (i_dimension : nat) (side : bool) : nat := 2 * i_dimension + 1 - Nat.b2n side.
Definition cart_to_dir (i_dimension : nat) : direction := mk_dir i_dimension i_dimension true false.

(** indexing a vector with an [int]: negative or too large is undefined behaviour *)
Definition zget {A} (l : list A) (i : Z) : outcome A := if (i <? 0)%Z then Ub else aget l (Z.to_nat i).
Definition zset {A} (l : list A) (i : Z) (x : A) : outcome (list A) := if (i <? 0)%Z then Ub else aset l (Z.to_nat i) x.

(** face_vertex_inds, connection.cpp:6-27 *)
Definition face_vertex_inds (n_dim : nat) (d : direction) : outcome (list Z) :=
  let n_vert := 2 ^ (n_dim - 1) in
  let inds := map Z.of_nat (seq 0 n_vert) in
  let inds :=
    if flip_tangential d then
      let stride :=
        if n_dim =? 3 then
          let unused_dim := (3 - Z.of_nat (dim0 d) - Z.of_nat (dim1 d))%Z in
          if (unused_dim >? Z.of_nat (dim0 d))%Z then 2%Z else 1%Z
        else 1%Z in
      map (fun i_vert => (i_vert + stride * (1 - 2 * ((i_vert / stride) mod 2)))%Z) inds
    else inds in
  if transpose d then
    let! a := aget inds 1 in
    let! b := aget inds 2 in
    let! inds := aset inds 1 b in
    aset inds 2 a
  else Ok inds.

(** the vertices of one face, connection.cpp:35-42 *)
Definition side_vertices (n_dim : nat) (d : direction) (side : bool) : list Z :=
  let stride := (2 ^ (Z.of_nat n_dim - Z.of_nat (i_dim d side) - 1))%Z in
  filter (fun i_vertex => ((i_vertex / stride) mod 2 =? Z.b2z (face_sign d side))%Z) (map Z.of_nat (seq 0 (2 * 2 ^ (n_dim - 1)))).

(** vertex_inds, connection.cpp:29-50 *)
Definition vertex_inds (n_dim : nat) (d : direction) : outcome (list Z * list Z) :=
  let! permutation := face_vertex_inds n_dim d in
  let! permuted := ofold (fun i_vert acc =>
    let! p := aget permutation i_vert in
    let! x := zget (side_vertices n_dim d true) p in
    Ok (acc ++ [x])) (seq 0 (2 ^ (n_dim - 1))) [] in
  Ok (side_vertices n_dim d false, permuted).

(** * Face_permutation, Spatial.hpp:73-131 *)

(** An in-place Eigen operation on the [len] entries from [off]: entry [k] receives the former entry [pi k].
    Accessing the array outside of its bounds is undefined behaviour. *)
Definition permute_region {A} (off len : nat) (pi : nat -> nat) (l : list A) : outcome (list A) :=
  if off + len <=? length l then
    ofold (fun k acc =>
      let! x := aget l (if ((off <=? k) && (k <? off + len))%bool then off + pi (k - off) else k) in
      Ok (acc ++ [x])) (seq 0 (length l)) []
  else Ub.

(** Entry (i, j) of the column-major Eigen matrix with [rs] rows is at [i + rs*j].
    [transposeInPlace], [colwise().reverseInPlace()] (reverses every column), [rowwise().reverseInPlace()] (reverses every row). *)
Definition pi_transpose (rs k : nat) : nat := let i := k mod rs in let j := k / rs in j + rs * i.
Definition pi_colwise (rs k : nat) : nat := let i := k mod rs in let j := k / rs in (rs - 1 - i) + rs * j.
Definition pi_rowwise (rs n_cols k : nat) : nat := let i := k mod rs in let j := k / rs in i + rs * (n_cols - 1 - j).

(** transpose(), Spatial.hpp:85-95 *)
Definition perm_transpose {A} (n_dim rs n_var : nat) (d : direction) (tgt : list A) : outcome (list A) :=
  let n_qpoint := rs ^ (n_dim - 1) in
  if transpose d then
    if n_dim =? 3 then ofold (fun i_var t => permute_region (i_var * n_qpoint) (rs * rs) (pi_transpose rs) t) (seq 0 n_var) tgt
    else Ok tgt
  else Ok tgt.

(** flip(), Spatial.hpp:101-118 *)
Definition perm_flip {A} (n_dim rs n_var : nat) (d : direction) (tgt : list A) : outcome (list A) :=
  let n_qpoint := rs ^ (n_dim - 1) in
  if flip_tangential d then
    if n_dim =? 3 then
      let colwise := xorb (Z.of_nat (dim0 d) >? 3 - Z.of_nat (dim0 d) - Z.of_nat (dim1 d))%Z (transpose d) in
      ofold (fun i_var t => permute_region (i_var * n_qpoint) (rs * rs) (if colwise then pi_colwise rs else pi_rowwise rs rs) t)
        (seq 0 n_var) tgt
    else if n_dim =? 2 then permute_region 0 (rs * (n_var * n_qpoint / rs)) (pi_colwise rs) tgt
    else Ok tgt
  else Ok tgt.

(** match_faces, restore: Spatial.hpp:128-129 *)
Definition match_faces {A} (n_dim rs n_var : nat) (d : direction) (tgt : list A) : outcome (list A) :=
  let! t := perm_transpose n_dim rs n_var d tgt in perm_flip n_dim rs n_var d t.
Definition restore {A} (n_dim rs n_var : nat) (d : direction) (tgt : list A) : outcome (list A) :=
  let! t := perm_flip n_dim rs n_var d tgt in perm_transpose n_dim rs n_var d t.

(** * Refined_connection, connection.hpp:168-286 *)

(** What the constructor establishes: which vertices are merged (coarse vertex, fine element, vertex of the fine element), which
    fine element each fine connection belongs to, and which fine connection each entry of [refined_face.fine] points to. *)
Record refined := mk_refined {
  merges : list (Z * nat * Z); fine_cons : list nat; mortars : list (option nat); coarse_str : list bool }.

Definition bget (l : list bool) (i : bool) : outcome bool := aget l (Nat.b2n i).

(** coarse_stretch, connection.hpp:209-213 *)
Definition coarse_stretch (d : direction) (str : list bool) : outcome (list bool) :=
  let trans := transpose d in
  let! a := bget str trans in
  let! b := bget str (negb trans) in
  Ok [a; b].

(** The constructor, connection.hpp:228-270. [n_given] is the number of fine elements passed, [rev] is [reverse_order],
    [str] the two entries of [stretch_arg]. Face storage, normals and the actual merging ([Vertex::eat]) are not part of this. *)
Definition refined_connection (nd : nat) (d : direction) (rev : bool) (str : list bool) (n_given : nat) : outcome refined :=
  if n_given =? 0 then Ub else (* the initializer of [matcher] looks at the first fine element *)
  let! cstr := coarse_stretch d str in
  let! (n_fine, any_str) := ofold (fun i_dimension s =>
    let! b := aget str i_dimension in Ok (if b : bool then (fst s / 2, true) else s)) (seq 0 (nd - 1)) (2 ^ nd / 2, false) in
  if negb (n_given =? n_fine) then Throw else
  let! permutation_inds := face_vertex_inds nd d in
  let! vert_inds := vertex_inds nd d in
  let side (b : bool) (p : list Z * list Z) := if b then snd p else fst p in
  (* merge vertices *)
  let! ms := ofold (fun i_face acc =>
    let! p := aget permutation_inds i_face in
    let! ind0 := stretched_ind nd i_face str in
    let! ind1 := stretched_ind nd (Z.to_nat p) str in
    let e := if rev then ind0 else ind1 in
    let! vc := aget (side rev vert_inds) i_face in
    let! vf := aget (side (negb rev) vert_inds) i_face in
    if e <? n_given then Ok (acc ++ [(vc, e, vf)]) else Ub) (seq 0 (2 ^ nd / 2)) [] in
  (* connect faces *)
  let! (cs, fine) := ofold (fun i_face s =>
    let! p := aget permutation_inds i_face in
    let! ind1 :=
      if any_str : bool then
        let! st := bget str (2 * Z.of_nat (i_dim d rev) >? 3 - Z.of_nat (i_dim d (negb rev)))%Z in
        Ok (Z.b2z (negb (Nat.b2n (flip_tangential d && negb st)%bool =? i_face)))
      else Ok p in
    let ind (b : bool) := if b then ind1 else Z.of_nat i_face in
    let e := ind (negb rev) in
    if ((0 <=? e)%Z && (e <? Z.of_nat n_given)%Z)%bool then
      let! fine := zset (snd s) (ind rev) (Some (length (fst s))) in
      Ok (fst s ++ [Z.to_nat e], fine)
    else Ub) (seq 0 n_given) ([], [None; None; None; None]) in
  Ok (mk_refined ms cs fine cstr).

(** * Hanging_vertex_matcher, src/Hanging_vertex_matcher.cpp *)

(** interp_mat, lines 24-28 *)
Definition interp_mat : matrix := mk_mat 3 2 (fun i j => match i, j with
  | 0, 0 => 1 | 0, _ => 0 | 1, _ => 0.5 | _, 0 => 0 | _, _ => 1 end)%R.

(** index of the [i_vert]-th vertex of the face, lines 19-20 *)
Definition hanging_ind (n_dim id : nat) (isp : bool) (i_vert : nat) : nat :=
  let stride := 2 ^ (n_dim - 1 - id) in
  i_vert / stride * stride * 2 + i_vert mod stride + Nat.b2n isp * stride.

(** position of the vertex in the interpolated array, lines 36-37. [str[n_dim - 2]] does not exist if [n_dim] is 1. *)
Definition interp_ind (n_dim : nat) (str : list bool) (i_elem i_vert : nat) : outcome nat :=
  if n_dim <? 2 then Ub else
  let! s := aget str (n_dim - 2) in
  let inner := (i_elem * Nat.b2n (negb s)) mod 2 + (i_vert mod 2) * (1 + Nat.b2n s) in
  if n_dim =? 3 then
    let! s0 := aget str 0 in
    let! s1 := aget str 1 in
    Ok (inner + (i_elem * Nat.b2n (negb s0) / (1 + Nat.b2n (negb s1)) + i_vert / 2 * (1 + Nat.b2n s0)) * 3)
  else Ok inner.

(** match, lines 13-41. [vals e v] is the value [access_func] gives access to for vertex [v] of the [e]-th of the [n_elem]
    fine elements (different elements and vertices have different values). *)
Definition matcher_match (n_dim id : nat) (isp : bool) (str : list bool) (n_elem : nat) (vals : nat -> nat -> R) : outcome (nat -> nat -> R) :=
  let n_vert := 2 ^ n_dim / 2 in
  let! values := ofold (fun i_vert acc =>
    let! e := stretched_ind n_dim i_vert str in
    if e <? n_elem then Ok (acc ++ [vals e (hanging_ind n_dim id isp i_vert)]) else Ub) (seq 0 n_vert) [] in
  let! interpolated := hypercube_matvec n_dim interp_mat n_vert (fun i => nth i values 0%R) in
  ofold (fun i_elem => ofold (fun i_vert vals =>
    let! k := interp_ind n_dim str i_elem i_vert in
    if k <? fst interpolated then
      Ok (fun e v => if ((e =? i_elem) && (v =? hanging_ind n_dim id isp i_vert))%bool then snd interpolated k else vals e v)
    else Ub) (seq 0 n_vert)) (seq 0 n_elem) vals.
