(** Property theorems: C30 (integer power and logarithm), C31 (bisection), C45 (face numbering helpers). *)
From Coq Require Import Reals ZArith List Bool Lia Lra.
From Verif Require Import Outcome Math_Model Math_Spec Math_Proofs.
Import ListNotations.

(** C30. For a nonnegative exponent [pow] is the power when that fits in an [int]; otherwise it overflows. *)
Theorem pow_nonneg : forall b e, (0 <= e)%Z ->
  (fits_int (b ^ e) -> pow_int b e = Ok (b ^ e)%Z) /\ (~ fits_int (b ^ e) -> pow_int b e = Ub).
Proof. exact pow_int_nonneg. Qed.
Print Assumptions pow_nonneg.

(** C30. For a negative exponent it is the power rounded to zero, undefined exactly for base 0. *)
Theorem pow_neg : forall b e, (e < 0)%Z ->
  pow_int b e = if (b =? 0)%Z then Ub else Ok (if (Z.abs b =? 1)%Z then b ^ (- e) else 0)%Z.
Proof. exact pow_int_neg. Qed.
Print Assumptions pow_neg.

(** C30. The floating-point instance. *)
Theorem pow_double : forall b e, (0 <= e)%Z ->
  pow_real b e = (b ^ Z.to_nat e)%R /\ (b <> 0%R -> pow_real b (- e) = (/ b ^ Z.to_nat e)%R).
Proof. exact pow_real_spec. Qed.
Print Assumptions pow_double.

(** C30. [log] is the least exponent reaching the argument, unless that power does not fit in an [int]
    (then the loop overflows). *)
Theorem log_least : forall base arg, fits_int arg -> (2 <= base)%Z ->
  exists n, least_log base arg n /\ (fits_int (base ^ n) -> log_int base arg = Ok n) /\ (~ fits_int (base ^ n) -> log_int base arg = Ub).
Proof. exact log_int_spec. Qed.
Print Assumptions log_least.

(** C30. [log] reports invalid bases. *)
Theorem log_invalid : forall base arg, (base <= 1)%Z -> log_int base arg = Ok (-1)%Z.
Proof. intros base arg H. unfold log_int. destruct (Z.leb_spec base 1); [reflexivity|lia]. Qed.
Print Assumptions log_invalid.

(** C31. For a continuous function and a bracket with a sign change, bisection terminates with a point of the bracket
    within the tolerance of a root; without a sign change it throws. *)
Theorem bisection_correct : forall (f : R -> R) (atol b0 b1 : R), (0 < atol)%R -> continuity f -> (b0 <= b1)%R ->
  ((f b0 * f b1 <= 0)%R -> exists k x, (forall fuel, (k <= fuel)%nat -> bisection (fun x => Some (f x)) atol fuel b0 b1 = Ok x) /\
     (b0 <= x <= b1)%R /\ exists z, f z = 0%R /\ (b0 <= z <= b1)%R /\ (Rabs (x - z) <= atol)%R) /\
  ((0 < f b0 * f b1)%R -> forall fuel, bisection (fun x => Some (f x)) atol fuel b0 b1 = Throw).
Proof. exact bisection_spec. Qed.
Print Assumptions bisection_correct.

(** C31. Each pass keeps the sign change and halves the bracket. *)
Theorem bisection_step : forall (f : R -> R) b0 b1, (b0 <= b1)%R -> (f b0 * f b1 <= 0)%R ->
  exists mid b0' b1', bisect_step (fun x => Some (f x)) b0 b1 (Some (f b0)) (Some (f b1)) = (mid, (b0', b1', Some (f b0'), Some (f b1'))) /\
    (f b0' * f b1' <= 0)%R /\ (b1' - b0' = (b1 - b0) / 2)%R /\ (b0 <= b0')%R /\ (b1' <= b1)%R /\ (mid = b0' \/ mid = b1').
Proof. exact bisect_step_spec. Qed.
Print Assumptions bisection_step.

(** C31. Whatever the function does (NaNs included), a returned point lies in the initial bracket. *)
Theorem bisection_in_bracket : forall (g : R -> option R) atol fuel b0 b1 x, (b0 <= b1)%R ->
  bisection g atol fuel b0 b1 = Ok x -> (b0 <= x <= b1)%R.
Proof. exact bisection_bracket. Qed.
Print Assumptions bisection_in_bracket.

(** C45. [stretched_ind] is the numeral formed by the bits of the directions that are not stretched. *)
Theorem stretched_ind_correct : forall n_dim ind stretch, 1 <= n_dim <= 3 -> ind < 2 ^ (n_dim - 1) -> length stretch = 2 ->
  exists bits, bits_of n_dim ind bits /\ stretched_ind n_dim ind stretch = Ok (from_bits (unstretched bits stretch)).
Proof. exact stretched_spec. Qed.
Print Assumptions stretched_ind_correct.

(** C45. [direction] is the outward unit normal of a face. *)
Theorem direction_normal : forall n_dim i_face, i_face < 2 * n_dim ->
  length (direction n_dim i_face) = n_dim /\
  nth (i_face / 2) (direction n_dim i_face) 0%Z = (if Nat.odd i_face then 1 else -1)%Z /\
  forall j, j <> i_face / 2 -> nth j (direction n_dim i_face) 0%Z = 0%Z.
Proof. exact direction_spec. Qed.
Print Assumptions direction_normal.

Example math_examples :
  pow_int 3 4 = Ok 81%Z /\ pow_int (-2) 31 = Ok (- 2 ^ 31)%Z /\ pow_int 2 31 = Ub /\ pow_int (-1) (-3) = Ok (-1)%Z /\
  log_int 3 28 = Ok 4%Z /\ log_int 2 (2 ^ 30) = Ok 30%Z /\ log_int 2 (2 ^ 30 + 1) = Ub /\ log_int 1 7 = Ok (-1)%Z /\
  stretched_ind 3 2 [true; false] = Ok 0 /\ stretched_ind 3 2 [false; true] = Ok 1 /\ direction 3 3 = [0; 1; 0]%Z.
Proof. repeat split; vm_compute; reflexivity. Qed.

(** Bisecting [x - 1/3] on [0, 1] with tolerance 1/2 takes one pass, with tolerance 1/4 two. *)
Example bisection_example : bisection (fun x => Some (x - 1/3)%R) (1/2) 1 0 1 = Ok ((0 + 1)/2)%R /\
  bisection (fun x => Some (x - 1/3)%R) (1/4) 2 0 1 = Ok ((0 + (0 + 1)/2)/2)%R.
Proof.
  split; unfold bisection; cbn; repeat (match goal with |- context [Rlt_dec ?a ?b] => destruct (Rlt_dec a b); try (exfalso; lra) | |- context [Rle_dec ?a ?b] => destruct (Rle_dec a b); try (exfalso; lra) end; cbn); reflexivity.
Qed.
