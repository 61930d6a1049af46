(** Model of [Solver::Linearized], src/Linearized.cpp, include/Solver.hpp:63-86: the vectors are stages of the elements' data.

    Simplifications:
    - double is R with exact arithmetic;
    - the mesh has at least one element; a vector is a function of the element and the degree of freedom, of which the elements and degrees
      of freedom of the mesh count; the loops of [scale] and [add] write every entry from the same entries of the inputs, so they are
      pointwise operations for all entries;
    - the rest of the data of the solver (faces, time steps, namespace, ...) is of any type [W]; [compute_write_face] with [compute_prolong]
      and [update] are any functions of the whole data; what is needed of them is said in the theorems;
    - the vectors that [elems[i].stage(i)] finds are those of stage 0 to [n_stage - 1] = 33 (src/Element.cpp:114-118,
      src/Storage_params.cpp:34, src/Solver.cpp:138: 34 stages if implicit); any other stage is outside of them, which counts as
      undefined behaviour. *)
From Coq Require Import Reals Arith ZArith List Bool.
From Verif Require Import Outcome RSum.
Open Scope R_scope.

Definition field : Type := nat -> nat -> R.
(** include/Solver.hpp:72-74 *)
Definition storage_start : Z := 4.
Definition n_storage : Z := 30.
Definition finite_diff : R := 1 / 1000.

Section Linearized.
  Context {W : Type}.
  Record data : Type := { stages : nat -> field; rest : W }.

  (** src/Element.cpp:114-118, [stage]: the position in the list of stages *)
  Definition stage (i : Z) : outcome nat := if ((0 <=? i) && (i <? storage_start + n_storage))%Z then Ok (Z.to_nat i) else Ub.
  Definition put (k : nat) (f : field) (d : data) : data := {| stages := fun j => if (j =? k)%nat then f else stages d j; rest := rest d |}.

  (** src/Linearized.cpp:28-37 *)
  Definition scale (output input : Z) (scalar : R) (d : data) : outcome data :=
    let! out := stage (storage_start + output) in
    let! inp := stage (storage_start + input) in
    Ok (put out (fun e i => scalar * stages d inp e i) d).
  (** lines 39-51 *)
  Definition add (output : Z) (coef0 : R) (vec0 : Z) (coef1 : R) (vec1 : Z) (d : data) : outcome data :=
    let! out := stage (storage_start + output) in
    let! in0 := stage (storage_start + vec0) in
    let! in1 := stage (storage_start + vec1) in
    Ok (put out (fun e i => coef0 * stages d in0 e i + coef1 * stages d in1 e i) d).

  Section Inner.
    Context (n_elem n_var nq : nat) (weights ref_state : nat -> R).
    (** lines 53-70; the order of the additions is left to the reduction *)
    Definition inner (input0 input1 : Z) (d : data) : outcome R :=
      let! in0 := stage (storage_start + input0) in
      let! in1 := stage (storage_start + input1) in
      Ok (rsum n_elem (fun i_elem => rsum n_var (fun i_var => rsum nq (fun i_qpoint =>
        let i_dof := (i_var * nq + i_qpoint)%nat in
        stages d in0 i_elem i_dof * weights i_qpoint / ref_state i_var * stages d in1 i_elem i_dof)))).
  End Inner.

  Section Operator.
    (** [compute_write_face] and [compute_prolong]; [Solver::update] *)
    Context (faces update : data -> data).
    (** lines 72-84 *)
    Definition matvec (output input : Z) (d : data) : outcome data :=
      let! d := add (- storage_start) 1 (- storage_start) finite_diff input d in
      let d := faces d in
      let d := update d in
      let! d := add output 1 (- storage_start) (-1) (- storage_start + 1) d in
      let! d := add output 1 output (-1) 1 d in
      let! d := scale output output (1 / finite_diff) d in
      let! d := scale (- storage_start) (- storage_start + 3) 1 d in
      Ok (faces d).
    (** lines 20-23: what the constructor does to the vectors *)
    Definition linearized (d : data) : outcome data :=
      let! d := scale (- storage_start + 3) (- storage_start) 1 d in
      let! d := scale 0 (- storage_start) 0 d in
      let! d := scale 1 (- storage_start) 0 d in
      matvec 1 0 d.
  End Operator.
End Linearized.
Arguments data : clear implicits.

(** lines 10-19: the reference state; [freestream i] is the value of the variable "freestream<i>" *)
Definition reference (n_dim : nat) (freestream : nat -> R) : nat -> R :=
  let mmtm := rsum n_dim (fun i_dim => freestream n_dim ^ 2) in
  let mmtm := sqrt mmtm in
  fun i_var => if (i_var <? n_dim)%nat then mmtm else freestream i_var.
