(** Models of the geometric predicates of include/math.hpp:220-287. Points are functions [nat -> R] used at indices below
    the dimension; [double] is [R]. *)
From Coq Require Import Reals List Arith.
From Verif Require Import RSum.
Local Open Scope R_scope.

Definition point : Type := nat -> R.

(** Eigen's [dot] and [squaredNorm] in dimension [n] *)
Definition dot (n : nat) (u v : point) : R := rsum n (fun i => u i * v i).
Definition sqnorm (n : nat) (u : point) : R := dot n u u.

(** include/math.hpp:223-229. For coincident endpoints the quotient is 0/0 = NaN and [std::max(0., NaN)] is 0. *)
Definition proj_to_segment (n : nat) (e0 e1 target : point) : point :=
  let diff := fun i => e1 i - e0 i in
  let proj := if Req_EM_T (sqnorm n diff) 0 then 0
              else Rmin 1 (Rmax 0 (dot n diff (fun i => target i - e0 i) / sqnorm n diff)) in
  fun i => e0 i + proj * diff i.

(** include/math.hpp:259-264 *)
Record ball : Type := mk_ball { center : point; radius_sq : R }.

(** Eigen's [maxCoeff] of a nonempty row of [k + 1] entries *)
Fixpoint max_coeff (k : nat) (f : nat -> R) : R := match k with O => f 0%nat | S k' => Rmax (max_coeff k' f) (f (S k')) end.

(** include/math.hpp:271-278; [points j] is column [j] of [n_point] columns ([n_point] is positive) *)
Definition bounding_ball (n n_point : nat) (points : nat -> point) : ball :=
  let c := fun i => rsum n_point (fun j => points j i) / INR n_point in
  mk_ball c (max_coeff (n_point - 1) (fun j => sqnorm n (fun i => points j i - c i))).

(** include/math.hpp:281-287; for coincident endpoints the comparison is with NaN, hence false *)
Definition intersects (n : nat) (b : ball) (e0 e1 : point) : bool :=
  let diff := fun i => e1 i - e0 i in
  let c := fun i => center b i - e0 i in
  if Req_EM_T (sqnorm n diff) 0 then false
  else if Rle_dec (sqnorm n (fun i => c i - dot n c diff / sqnorm n diff * diff i)) (radius_sq b) then true else false.

(** include/math.hpp:232-239 *)
Definition approx_equal (rtol atol x y : R) : bool := if Rlt_dec (Rabs (x - y)) (atol + rtol * Rabs (x + y) / 2) then true else false.
