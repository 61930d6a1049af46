(** Model of the check of thermodynamic admissibility and of the loop that restores it: src/thermo.cpp:6-18 ([admissible]),
    src/Solver.cpp:921-959 ([is_admissible]), 961-1095 ([fix_admissibility]).

    Simplifications:
    - a double is a real number, an infinity or NaN; they are only compared;
    - exceptions of a parallel loop are those of the sequential loop;
    - [admis] stands for [is_admissible], [coefs] for the coefficients computed from the records (modelled in [fix_coefs]) and [smear] for the
      kernels [max_dt_fix_therm_admis], [compute_fix_therm_admis] and [max_dt]: any functions of the flow and of the coefficients;
    - messages, output files and the time are left out; hanging vertices are not matched. *)
From Coq Require Import Reals List Arith.
From stdpp Require base gmap.
From Verif Require Import Outcome Loop.
From Verif Require Vertex_Model.
Import ListNotations.
Open Scope R_scope.

Inductive double := Fin (x : R) | Pinf | Ninf | Nan.
(** [x > 0.] *)
Definition gt0 (x : double) : bool :=
  match x with
  | Fin x => if Rlt_dec 0 x then true else false
  | Pinf => true
  | _ => false
  end.
Definition isfinite (x : double) : bool := match x with Fin _ => true | _ => false end.

(** src/thermo.cpp:6-18 *)
Definition admissible (data : nat -> double) (n_dim n_qpoint : nat) : outcome bool :=
  let n_var := (n_dim + 2)%nat in
  ofold (fun i_qpoint admiss =>
    let admiss := (admiss && gt0 (data (n_dim * n_qpoint + i_qpoint)%nat) && gt0 (data ((n_dim + 1) * n_qpoint + i_qpoint)%nat))%bool in
    let! _ := ofold (fun i_var _ => if isfinite (data (i_var * n_qpoint + i_qpoint)%nat) then Ok tt else Throw) (seq 0 n_var) tt in
    Ok admiss) (seq 0 n_qpoint) true.

(** the data of an element that are checked: [state()] and [face(i_face, false)] *)
Record element := { state : nat -> double; face : nat -> nat -> double }.
(** include/Refined_face.hpp: [stretch] and [fine] *)
Record refined_face := { stretch : nat -> bool; fine : nat -> nat -> double }.

Section Check.
  Context (nd rs : nat).
  Definition nq : nat := (rs ^ nd)%nat.
  (** src/Solver.cpp:937-941 *)
  Definition check_element (elem : element) : outcome bool :=
    let! elem_admis := admissible (state elem) nd nq in
    ofold (fun i_face (elem_admis : bool) => if elem_admis then admissible (face elem i_face) nd (nq / rs) else Ok false) (seq 0 (nd * 2)) elem_admis.
  (** lines 950-951 *)
  Definition n_fine (ref : refined_face) : nat :=
    fold_left (fun n i_dim => (n / (1 + if stretch ref i_dim then 1 else 0))%nat) (seq 0 (nd - 1)) (2 ^ nd / 2)%nat.
  (** lines 921-959: the result and the records of the elements *)
  Definition is_admissible (elems : list element) (ref_faces : list refined_face) : outcome (bool * list nat) :=
    let! (admiss, records) := ofold (fun elem acc =>
      let '(admiss, records) := acc in
      let! elem_admis := check_element elem in
      Ok ((admiss && elem_admis)%bool, records ++ [if elem_admis then 0%nat else 1%nat])) elems (true, []) in
    let! refined_admiss := ofold (fun ref refined_admiss =>
      ofold (fun i_fine refined_admiss => if (refined_admiss : bool) then admissible (fine ref i_fine) nd (nq / rs) else Ok false)
        (seq 0 (n_fine ref)) refined_admiss) ref_faces true in
    Ok ((admiss && refined_admiss)%bool, records).
End Check.

Section Fix.
  Context {flow : Type} (admis : flow -> outcome bool).
  (** the flow and the coefficients of all elements at their quadrature points *)
  Record solver := { the_flow : flow; bulk_av : nat -> R; laplacian_av : nat -> R }.
  Context (coefs : flow -> nat -> R) (smear : flow -> (nat -> R) -> (nat -> R) -> flow).
  (** lines 1019-1086, the part of an iteration after the check; [smear] gets the bulk and the Laplacian coefficients *)
  Definition iteration (s : solver) : solver :=
    let laplacian := coefs (the_flow s) in
    let bulk := bulk_av s in
    let '(laplacian, bulk) := (bulk, laplacian) in
    let f := smear (the_flow s) bulk laplacian in
    let '(laplacian, bulk) := (bulk, laplacian) in
    {| the_flow := f; bulk_av := bulk; laplacian_av := laplacian |}.
  (** line 974, [1e5] *)
  Context (limit : nat).
  (** lines 973-1087; [n_iters = None] is the greatest [int], which [iter] does not reach *)
  Fixpoint fix_loop (fuel iter : nat) (n_iters : option nat) (s : solver) : outcome (nat * solver) :=
    match fuel with
    | O => NoFuel
    | S fuel =>
      if match n_iters with None => true | Some n => iter <? n end%nat then
        if (iter <? limit)%nat then
          let! a := admis (the_flow s) in
          if (a : bool) then
            if (iter =? 0)%nat then Ok (S iter, s)
            else fix_loop fuel (S iter) (Some match n_iters with None => 2 * iter | Some n => Nat.min n (2 * iter) end%nat) (iteration s)
          else fix_loop fuel (S iter) None (iteration s)
        else Throw
      else Ok (iter, s)
    end.
  (** lines 961-1095: the result, the solver and what is added to [fix_admis_iters] *)
  Definition fix_admissibility (fix_admis : bool) (s : solver) : outcome (bool * solver * nat) :=
    if negb fix_admis then Ok (false, s, 0%nat)
    else
      let! (iter, s) := fix_loop (S (S limit)) 0 None s in
      let iter := (iter - 1)%nat in
      Ok (negb (iter =? 0)%nat, s, iter).
End Fix.
Arguments solver : clear implicits.

(** lines 998-1018: the values at the vertices; [record] is that of each element *)
Import base gmap.
Local Open Scope R_scope.
Definition max_fac (nv : nat) (d : Vertex_Model.field) (e : nat) : R :=
  fold_left (fun m i_vert => Rmax m (default 0 (d !! (e, i_vert)))) (seq 0 nv) 0.
Definition fix_coefs (els : Vertex_Model.mesh) (nv : nat) (record : nat -> nat) (order0 order1 order2 order3 : list (nat * nat)) (h : Vertex_Model.heap) (d : Vertex_Model.field) : option Vertex_Model.field :=
  match Vertex_Model.share_vertex_data els (fun e _ => INR (record e)) Vertex_Model.vector_max order0 order1 h d with
  | None => None
  | Some (h, d) =>
    match Vertex_Model.share_vertex_data els (fun e _ => max_fac nv d e) Vertex_Model.vector_max order2 order3 h d with
    | None => None
    | Some (_, d) => Some d
    end
  end.
