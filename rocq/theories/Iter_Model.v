(** Model of the iterative solvers for linear equations: src/iterative.cpp, include/iterative.hpp, and of the
    interface they use: include/Linear_equation.hpp, src/Linear_equation.cpp.

    Simplifications:
    - double is R with exact arithmetic, except that a division by zero (and everything computed from its result) is kept
      apart as [None], "not a finite number": a scalar is an [option R], a vector is [None] as soon as it is not finite;
    - a vector is a function from coordinates to R of which the first [n] (the dimension) count; a different real vector
      space of finite dimension (e.g. Solver::Linearized, src/Linearized.cpp) is covered by choosing coordinates;
    - the operator and the inner product are arbitrary functions [op] and [ip];
    - [n_restart] and [n_iters] are nonnegative;
    - Eigen's [fullPivHouseholderQr().solve] is a function [lsq] (what it must satisfy is said in the theorems), which
      gives non-finite coefficients whenever an entry is not finite. *)
From Coq Require Import Reals Arith Bool List.
From Verif Require Import Outcome RSum.
Open Scope R_scope.

Definition vec : Type := nat -> R.
(** The vectors managed by the equation object, indexed from 0 (include/Linear_equation.hpp:10-13). *)
Definition store : Type := nat -> option vec.

(** include/Linear_equation.hpp:24-35, class Linear_equation: the number of vectors, the operator A, the inner product *)
Record lineq : Type := { n_vecs : nat; op : vec -> vec; ip : vec -> vec -> R }.

(** [a*x + b*y] *)
Definition lin (a : R) (x : vec) (b : R) (y : vec) : vec := fun i => a * x i + b * y i.
Definition scl (a : R) (x : vec) : vec := fun i => a * x i.

(** Arithmetic of doubles that may not be finite. *)
Definition lift2 (f : R -> R -> R) (a b : option R) : option R :=
  match a, b with
  | Some a, Some b => Some (f a b)
  | _, _ => None
  end.
Definition dmul := lift2 Rmult.
Definition dopp (a : option R) : option R := option_map Ropp a.
Definition ddiv (a b : option R) : option R :=
  match a, b with
  | Some a, Some b => if Req_EM_T b 0 then None else Some (a / b)
  | _, _ => None
  end.
Definition dsqrt (a : option R) : option R :=
  match a with
  | Some a => if Rlt_dec a 0 then None else Some (sqrt a)
  | None => None
  end.

Definition put (st : store) (i : nat) (x : option vec) : store := fun j => if j =? i then x else st j.

(** Using an index that the object does not manage is undefined behaviour (src/Linear_equation.cpp: [_vecs(all, i)];
    src/Linearized.cpp: [stage(storage_start + i)]). *)
Definition within {A : Type} (e : lineq) (i : nat) (k : outcome A) : outcome A := if i <? n_vecs e then k else Ub.

(** include/Linear_equation.hpp:27, scale *)
Definition e_scale (e : lineq) (out inp : nat) (c : option R) (st : store) : outcome store :=
  within e out (within e inp
    (Ok (put st out (match c, st inp with Some c, Some x => Some (scl c x) | _, _ => None end)))).

(** include/Linear_equation.hpp:29, add *)
Definition e_add (e : lineq) (out : nat) (c0 : option R) (v0 : nat) (c1 : option R) (v1 : nat) (st : store) : outcome store :=
  within e out (within e v0 (within e v1
    (Ok (put st out
       (match c0, st v0, c1, st v1 with
        | Some c0, Some x0, Some c1, Some x1 => Some (lin c0 x0 c1 x1)
        | _, _, _, _ => None
        end))))).

(** include/Linear_equation.hpp:30, inner *)
Definition e_inner (e : lineq) (i j : nat) (st : store) : outcome (option R) :=
  within e i (within e j
    (Ok (match st i, st j with Some x, Some y => Some (ip e x y) | _, _ => None end))).

(** src/Linear_equation.cpp:6, norm *)
Definition e_norm (e : lineq) (i : nat) (st : store) : outcome (option R) :=
  let! s := e_inner e i i st in Ok (dsqrt s).

(** include/Linear_equation.hpp:32, matvec *)
Definition e_matvec (e : lineq) (out inp : nat) (st : store) : outcome store :=
  within e out (within e inp (Ok (put st out (option_map (op e) (st inp))))).

(** [for (int i = 0; i < n; ++i) s = f(i, s)] *)
Fixpoint loopn {A : Type} (f : nat -> A -> outcome A) (n : nat) (s : A) : outcome A :=
  match n with
  | O => Ok s
  | S m => let! t := loopn f m s in f m t
  end.

(** A matrix of doubles. *)
Definition dmat : Type := nat -> nat -> option R.
Definition mput (h : dmat) (i j : nat) (x : option R) : dmat :=
  fun i' j' => if andb (i' =? i) (j' =? j) then x else h i' j'.

(** src/iterative.cpp:8, [krylov_start] *)
Definition krylov_start : nat := 3.

(** src/iterative.cpp:19-22, the orthogonalization of one vector *)
Definition ortho (e : lineq) (iter col : nat) (s : store * dmat) : outcome (store * dmat) :=
  let next := (krylov_start + iter + 1)%nat in
  let! c := e_inner e next (krylov_start + col) (fst s) in
  let h := mput (snd s) col iter c in
  let! st := e_add e next (Some 1) next (dopp (h col iter)) (krylov_start + col) (fst s) in
  Ok (st, h).

(** src/iterative.cpp:16-25, one pass of the loop over [iter] *)
Definition arnoldi (e : lineq) (iter : nat) (s : store * dmat) : outcome (store * dmat) :=
  let next := (krylov_start + iter + 1)%nat in
  let! st := e_matvec e next (krylov_start + iter) (fst s) in
  let! s := loopn (ortho e iter) (iter + 1) (st, snd s) in
  let! c := e_norm e next (fst s) in
  let h := mput (snd s) (iter + 1) iter c in
  let! st := e_scale e next next (ddiv (Some 1) (h (iter + 1)%nat iter)) (fst s) in
  Ok (st, h).

(** All the entries of the [n_restart + 1] by [n_restart] matrix, if they are finite. *)
Definition finite (o : option R) : bool := match o with Some _ => true | None => false end.
Definition entry (o : option R) : R := match o with Some x => x | None => 0 end.
Definition all_finite (m : nat) (h : dmat) : bool :=
  forallb (fun i => forallb (fun j => finite (h i j)) (List.seq 0 m)) (List.seq 0 (m + 1)).

(** src/iterative.cpp:26, the coefficients ([Mat<>::Unit(n_restart + 1, 0)] is the first unit vector) *)
Definition solve (lsq : nat -> (nat -> nat -> R) -> (nat -> R) -> nat -> R) (m : nat) (h : dmat) (res_norm : option R)
    (i : nat) : option R :=
  match res_norm with
  | Some b =>
      if all_finite m h
      then Some (lsq m (fun i j => entry (h i j)) (fun i => if i =? 0 then b else 0) i)
      else None
  | None => None
  end.

(** src/iterative.cpp:10-30, one pass of the loop over [restart] *)
Definition gmres_cycle (lsq : nat -> (nat -> nat -> R) -> (nat -> R) -> nat -> R) (e : lineq) (m : nat) (st : store)
    : outcome store :=
  let! st := e_matvec e 2 0 st in
  let! st := e_add e 2 (Some (-1)) 2 (Some 1) 1 st in
  let! res_norm := e_norm e 2 st in
  let! st := e_scale e krylov_start 2 (ddiv (Some 1) res_norm) st in
  let! s := loopn (arnoldi e) m (st, fun _ _ => Some 0) in
  let coefs := solve lsq m (snd s) res_norm in
  loopn (fun iter st => e_add e 0 (Some 1) 0 (coefs iter) (krylov_start + iter) st) m (fst s).

(** src/iterative.cpp:6-31, gmres *)
Definition gmres (lsq : nat -> (nat -> nat -> R) -> (nat -> R) -> nat -> R) (e : lineq) (n_restart n_iters : nat)
    (st : store) : outcome store :=
  if krylov_start + n_restart <=? n_vecs e
  then loopn (fun _ st => gmres_cycle lsq e n_restart st) n_iters st
  else Throw.

(** src/iterative.cpp:35-40, the indices of the vectors *)
Definition i_r : nat := 2.
Definition i_p : nat := 3.
Definition i_s : nat := 4.
Definition i_ref : nat := 5.
Definition i_Ap : nat := 6.
Definition i_As : nat := 7.

(** src/iterative.cpp:46-59, one pass of the loop over [iter] *)
Definition bicgstab_pass (e : lineq) (st : store) : outcome store :=
  let! r_dot_ref := e_inner e i_r i_ref st in
  let! st := e_matvec e i_Ap i_p st in
  let! d := e_inner e i_Ap i_ref st in
  let alpha := ddiv r_dot_ref d in
  let! st := e_add e i_s (Some 1) i_r (dopp alpha) i_Ap st in
  let! st := e_matvec e i_As i_s st in
  let! num := e_inner e i_As i_s st in
  let! den := e_inner e i_As i_As st in
  let omega := ddiv num den in
  let! st := e_add e 0 (Some 1) 0 alpha i_p st in
  let! st := e_add e 0 (Some 1) 0 omega i_s st in
  let! st := e_add e i_r (Some 1) i_s (dopp omega) i_As st in
  let! rr := e_inner e i_r i_ref st in
  let beta := ddiv (dmul (ddiv rr r_dot_ref) alpha) omega in
  let! st := e_add e i_p (Some 1) i_r beta i_p st in
  e_add e i_p (Some 1) i_p (dmul (dopp beta) omega) i_Ap st.

(** src/iterative.cpp:41-45, before the loop *)
Definition bicgstab_start (e : lineq) (st : store) : outcome store :=
  let! st := e_matvec e i_r 0 st in
  let! st := e_add e i_r (Some (-1)) i_r (Some 1) 1 st in
  let! st := e_scale e i_ref i_r (Some 1) st in
  e_scale e i_p i_r (Some 1) st.

(** src/iterative.cpp:33-60, bicgstab *)
Definition bicgstab (e : lineq) (n_iters : nat) (st : store) : outcome store :=
  if 8 <=? n_vecs e
  then
    let! st := bicgstab_start e st in
    loopn (fun _ st => bicgstab_pass e st) n_iters st
  else Throw.

(** ** Dense_equation *)

(** src/Linear_equation.cpp:31-39: Eigen evaluates [vec(output) = coef0*vec(vec0) + coef1*vec(vec1)] coefficient by
    coefficient in place; the storage is a matrix [m row column]. Solver::Linearized::add and scale (src/Linearized.cpp:
    28-51) are the same loop over the degrees of freedom of the elements. *)
Definition dense_add (n : nat) (out : nat) (c0 : R) (v0 : nat) (c1 : R) (v1 : nat) (m : nat -> nat -> R) : nat -> nat -> R :=
  let fix go k m :=
    match k with
    | O => m
    | S k' => let m := go k' m in
        fun i j => if andb (i =? k') (j =? out) then c0 * m k' v0 + c1 * m k' v1 else m i j
    end in
  go n m.

(** src/Linear_equation.cpp:26-29 *)
Definition dense_scale (n : nat) (out inp : nat) (c : R) (m : nat -> nat -> R) : nat -> nat -> R :=
  let fix go k m :=
    match k with
    | O => m
    | S k' => let m := go k' m in
        fun i j => if andb (i =? k') (j =? out) then c * m k' inp else m i j
    end in
  go n m.

(** src/Linear_equation.cpp:41-44, [dot] *)
Definition dense_ip (n : nat) (x y : vec) : R := rsum n (fun i => x i * y i).
(** src/Linear_equation.cpp:46-49: a matrix product is evaluated into a temporary before it is assigned (Eigen's default),
    so the output may be the input. *)
Definition dense_op (n : nat) (mat : nat -> nat -> R) (x : vec) : vec := fun i => rsum n (fun j => mat i j * x j).

(** src/Linearized.cpp:53-72: the inner product of Solver::Linearized; [w] is the weight of a quadrature point divided by
    the reference state of the variable, for each degree of freedom. *)
Definition weighted_ip (n : nat) (w : nat -> R) (x y : vec) : R := rsum n (fun i => x i * w i * y i).

(** src/Linear_equation.cpp:8-17, the constructors: a matrix, a right-hand side, a number of vectors and a guess.
    The second assertion comes after the storage is made and before it is written. *)
Definition dense_equation (n nv : nat) (mat : nat -> nat -> R) (rhs guess : vec) : outcome (lineq * store) :=
  if 2 <=? nv
  then Ok ({| n_vecs := nv; op := dense_op n mat; ip := dense_ip n |},
           fun i => Some (if i =? 0 then guess else if i =? 1 then rhs else fun _ => 0))
  else Throw.
