(** Mathematical notions used in the statements about Math_Model. *)
From Coq Require Import Reals ZArith List.
Import ListNotations.

(** the least exponent whose power reaches [arg] *)
Definition least_log (base arg n : Z) : Prop :=
  (0 <= n)%Z /\ (arg <= base ^ n)%Z /\ forall m, (0 <= m < n)%Z -> (base ^ m < arg)%Z.

Definition fits_int (x : Z) : Prop := (- 2 ^ 31 <= x <= 2 ^ 31 - 1)%Z.

(** binary numerals, most significant bit first *)
Definition from_bits (bits : list bool) : nat := fold_left (fun acc b => 2 * acc + (if b : bool then 1 else 0)) bits 0.
(** [bits] are the [n_dim - 1] bits of [ind]: one for each dimension along the face *)
Definition bits_of (n_dim ind : nat) (bits : list bool) : Prop := length bits = n_dim - 1 /\ from_bits bits = ind.
(** the bits of the dimensions which are not stretched *)
Fixpoint unstretched (bits stretch : list bool) : list bool :=
  match bits, stretch with
  | b :: bits', s :: stretch' => if s : bool then unstretched bits' stretch' else b :: unstretched bits' stretch'
  | _, _ => []
  end.
