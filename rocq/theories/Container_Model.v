(** Model of element containers, [erase_if] and sequence views. *)
From Coq Require Import ZArith List Bool.
From Verif Require Import Outcome.
Import ListNotations.
Local Open Scope Z_scope.

(** Reading [v[i]] with a signed index; outside [0, size) this is undefined behaviour.
    Models the subscripts [vec[...]] used in include/erase_if.hpp:19, include/Element_container.hpp:68,
    include/Sequences.hpp:47, 93 and include/Mesh_by_type.hpp:85, 89. *)
Definition vec_get {A : Type} (v : list A) (i : Z) : outcome A :=
  if i <? 0 then Ub else of_option_ub (nth_error v (Z.to_nat i)).

(** ** include/erase_if.hpp:14-22 [erase_if]

    [condition] may carry state [S] (a C++ callable can); [i_elem] runs from [i] to [vec.size()], [n] is the number of
    iterations left. The moved-from remains of [vec] are never read again (each index is visited once), so moving is
    modelled as copying. *)
Fixpoint erase_if_loop {A S : Type} (condition : S -> A -> bool * S) (vec : list A)
    (n : nat) (i : Z) (st : S) (erased : list A) : outcome (list A * S) :=
  match n with
  | O => Ok (erased, st)
  | Datatypes.S n' =>
      let! x := vec_get vec i in
      let (c, st') := condition st x in
      erase_if_loop condition vec n' (i + 1) st' (if negb c then erased ++ [x] else erased)
  end.

(** include/erase_if.hpp:14-22 *)
Definition erase_if {A S : Type} (condition : S -> A -> bool * S) (vec : list A) (st : S) : outcome (list A * S) :=
  erase_if_loop condition vec (length vec) 0 st [].

(** ** include/Element_container.hpp:40-115 [Complete_element_container]

    The element type is arbitrary ([A]); [level] is [Element::refinement_level].
    Simplifications: the construction of the element object itself (line 59) is the caller's payload; the
    views are modelled by the list [c_vec] they iterate over. *)
Record container (A : Type) : Type := {
  c_next_sn : Z;          (* line 46 *)
  c_vec : list A;         (* line 47 *)
  c_serial_ns : list Z    (* line 48 *)
}.
Arguments c_next_sn {A} _.
Arguments c_vec {A} _.
Arguments c_serial_ns {A} _.

(** include/Element_container.hpp:53-55 (constructor) *)
Definition container_init (A : Type) : container A := {| c_next_sn := 0; c_vec := []; c_serial_ns := [] |}.

(** largest [int] (32 bit) *)
Definition int_max : Z := 2147483647.

(** include/Element_container.hpp:57-62 [emplace]: [next_sn++] overflows when [next_sn] is [INT_MAX]. *)
Definition emplace {A : Type} (c : container A) (e : A) : outcome (container A * Z) :=
  if c_next_sn c <? int_max then
    Ok ({| c_next_sn := c_next_sn c + 1; c_vec := c_vec c ++ [e]; c_serial_ns := c_serial_ns c ++ [c_next_sn c] |},
        c_next_sn c)
  else Ub.

(** [std::lower_bound]/[std::upper_bound] by bisection, as used by [std::equal_range]
    (include/Element_container.hpp:66): the first position in [first, first+len) where [below] is false,
    assuming [below] is true then false. [n] is fuel; [S len] always suffices (proved). *)
Fixpoint partition_point (below : Z -> bool) (v : list Z) (n : nat) (first len : Z) : outcome Z :=
  match n with
  | O => NoFuel
  | S n' =>
      if 0 <? len then
        let half := len / 2 in
        let! x := vec_get v (first + half) in
        if below x then partition_point below v n' (first + half + 1) (len - half - 1)
        else partition_point below v n' first half
      else Ok first
  end.

(** include/Element_container.hpp:64-71 [at] *)
Definition at_ {A : Type} (level : A -> Z) (c : container A) (ref_level serial_n : Z) : outcome A :=
  let len := Z.of_nat (length (c_serial_ns c)) in
  let fuel := S (length (c_serial_ns c)) in
  let! first := partition_point (fun x => x <? serial_n) (c_serial_ns c) fuel 0 len in
  let! second := partition_point (fun x => x <=? serial_n) (c_serial_ns c) fuel 0 len in
  if second - first =? 1 then
    let! e := vec_get (c_vec c) first in
    if level e =? ref_level then Ok e else Throw
  else Throw.

(** include/Element_container.hpp:82-96 [purge]: loop over [i_elem], [n] iterations left. *)
Fixpoint purge_loop {A : Type} (predicate : A -> bool) (c : container A) (n : nat) (i : Z)
    (new_vec : list A) (new_sns : list Z) : outcome (list A * list Z) :=
  match n with
  | O => Ok (new_vec, new_sns)
  | S n' =>
      let! e := vec_get (c_vec c) i in
      if negb (predicate e) then
        let! sn := vec_get (c_serial_ns c) i in
        purge_loop predicate c n' (i + 1) (new_vec ++ [e]) (new_sns ++ [sn])
      else purge_loop predicate c n' (i + 1) new_vec new_sns
  end.

(** include/Element_container.hpp:82-96 [purge]: returns the number of deleted elements *)
Definition purge {A : Type} (c : container A) (predicate : A -> bool) : outcome (container A * Z) :=
  let! (new_vec, new_sns) := purge_loop predicate c (length (c_vec c)) 0 [] [] in
  Ok ({| c_next_sn := c_next_sn c; c_vec := new_vec; c_serial_ns := new_sns |},
      Z.of_nat (length (c_vec c)) - Z.of_nat (length new_vec)).

(** include/Element_container.hpp:98-105 [elem_handles], loop over [i_elem] *)
Fixpoint handles_loop {A : Type} (level : A -> Z) (c : container A) (n : nat) (i : Z) (handles : list (Z * Z)) :
    outcome (list (Z * Z)) :=
  match n with
  | O => Ok handles
  | S n' =>
      let! e := vec_get (c_vec c) i in
      let! sn := vec_get (c_serial_ns c) i in
      handles_loop level c n' (i + 1) (handles ++ [(level e, sn)])
  end.

(** include/Element_container.hpp:98-105 [elem_handles] *)
Definition elem_handles {A : Type} (level : A -> Z) (c : container A) : outcome (list (Z * Z)) :=
  handles_loop level c (length (c_vec c)) 0 [].

(** The public mutating operations of [Complete_element_container] (include/Element_container.hpp:57, 82). *)
Inductive container_op (A : Type) : Type :=
| Emplace (e : A)
| Purge (predicate : A -> bool).
Arguments Emplace {A} e.
Arguments Purge {A} predicate.

(** Execute one operation; the output is the serial number (emplace) or the number deleted (purge).
    Models calls of include/Element_container.hpp:57, 82. *)
Definition container_step {A : Type} (c : container A) (op : container_op A) : outcome (container A * Z) :=
  match op with
  | Emplace e => emplace c e
  | Purge p => purge c p
  end.

(** A history of calls on a freshly constructed container, with the list of outputs
    (include/Element_container.hpp:40-115). *)
Fixpoint container_run {A : Type} (c : container A) (ops : list (container_op A)) : outcome (container A * list Z) :=
  match ops with
  | [] => Ok (c, [])
  | op :: ops' =>
      let! (c', out) := container_step c op in
      let! (c'', outs) := container_run c' ops' in
      Ok (c'', out :: outs)
  end.

(** ** Sequences *)

(** include/Sequence.hpp:11-17 the [Sequence] interface: a size and an indexing function *)
Record sequence (A : Type) : Type := {
  seq_size : Z;
  seq_get : Z -> outcome A
}.
Arguments seq_size {A} _.
Arguments seq_get {A} _ _.

(** include/Sequences.hpp:28-49 [Vector_view] of a [std::vector] *)
Definition vector_view {A B : Type} (convert : A -> B) (v : list A) : sequence B :=
  {| seq_size := Z.of_nat (length v);
     seq_get := fun index => let! x := vec_get v index in Ok (convert x) |}.

(** include/Sequences.hpp:28-49 [Vector_view] with [sequence_template] another [Sequence]
    (as used in include/Mesh_by_type.hpp:67, 97, 111, 112) *)
Definition sequence_view {A B : Type} (convert : A -> B) (s : sequence A) : sequence B :=
  {| seq_size := seq_size s;
     seq_get := fun index => let! x := seq_get s index in Ok (convert x) |}.

(** include/Sequences.hpp:55-76 [Concatenation] *)
Definition concatenation {A : Type} (s0 s1 : sequence A) : sequence A :=
  {| seq_size := seq_size s0 + seq_size s1;
     seq_get := fun index =>
       let index1 := index - seq_size s0 in
       if index1 <? 0 then seq_get s0 index else seq_get s1 index1 |}.

(** include/Sequences.hpp:79-95 [Index] *)
Definition index_seq {A : Type} (s : sequence A) (inds : list Z) : sequence A :=
  {| seq_size := Z.of_nat (length inds);
     seq_get := fun index => let! j := vec_get inds index in seq_get s j |}.

(** include/Mesh_by_type.hpp:56 [n_fine]: number of fine connections of the [i]th kind of refined connection *)
Definition n_fine : list Z := [1; 2; 4].

(** include/Mesh_by_type.hpp:71-95 [Connection_view]

    [cons] are the conformal connections (line 55); [refs] is [ref_face_cons] (line 58), whose [i]th entry holds
    the refined connections with [n_fine[i]] fine elements; [conn r k] is [r.connection(k)], which is undefined
    outside the connections stored in [r] (modelled as a list of connections per refined connection).
    The loop over [i] (lines 86-92) is the recursion over the two parallel lists. *)
Fixpoint connection_view_get_ref {A : Type} (nf : list Z) (refs : list (list (list A))) (i_start : Z) : outcome A :=
  match nf, refs with
  | n :: nf', r :: refs' =>
      let n_total := n * Z.of_nat (length r) in
      if i_start <? n_total then
        (* C++ [/] and [%] truncate toward zero *)
        let! rc := vec_get r (Z.quot i_start n) in
        vec_get rc (Z.rem i_start n)
      else connection_view_get_ref nf' refs' (i_start - n_total)
  | _, _ => Throw
  end.

(** include/Mesh_by_type.hpp:76-81 [Connection_view::size] *)
Fixpoint connection_view_size_ref {A : Type} (nf : list Z) (refs : list (list (list A))) (sz : Z) : Z :=
  match nf, refs with
  | n :: nf', r :: refs' => connection_view_size_ref nf' refs' (sz + n * Z.of_nat (length r))
  | _, _ => sz
  end.

(** include/Mesh_by_type.hpp:71-95 *)
Definition connection_view {A : Type} (cons : list A) (refs : list (list (list A))) : sequence A :=
  {| seq_size := connection_view_size_ref n_fine refs (Z.of_nat (length cons));
     seq_get := fun index =>
       let i_start := index - Z.of_nat (length cons) in
       if i_start <? 0 then vec_get cons index else connection_view_get_ref n_fine refs i_start |}.
