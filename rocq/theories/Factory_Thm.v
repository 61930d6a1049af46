(** C46: kernel_factory *)
From Coq Require Import ZArith Lia Bool.
From Verif Require Import Outcome Factory_Model.
Local Open Scope Z_scope.

Lemma lookup_finds m nd rs : 1 <= nd -> 2 <= rs <= m -> forall fuel d r,
  1 <= d -> 1 <= r <= m -> (d - 1) * m + r <= Z.of_nat fuel -> nd < d \/ (nd = d /\ rs <= r) -> lookup fuel m d r nd rs = Ok (nd, rs).
Proof.
  intros Hnd Hrs. induction fuel as [|fuel IH]; intros d r Hd Hr Hf H; [nia|]. cbn [lookup].
  destruct (Z.eqb_spec d 1), (Z.eqb_spec r 1); cbn [andb]; try lia.
  - destruct (Z.eqb_spec nd d), (Z.eqb_spec rs r); cbn [andb]; try (subst; reflexivity); apply IH; nia.
  - destruct (Z.eqb_spec nd d); [lia|]. apply IH; nia.
  - destruct (Z.eqb_spec nd d), (Z.eqb_spec rs r); cbn [andb]; try (subst; reflexivity); apply IH; nia.
Qed.

(** C46. For valid arguments the kernel is the instance for exactly these arguments, otherwise an exception is thrown. *)
Theorem kernel_factory_exact : forall m nd rs,
  (1 <= nd <= 3 /\ 2 <= rs <= m -> kernel_factory m nd rs = Ok (nd, rs))
  /\ (~ (1 <= nd <= 3 /\ 2 <= rs <= m) -> kernel_factory m nd rs = Throw).
Proof.
  intros m nd rs. unfold kernel_factory.
  destruct (Z.ltb_spec nd 1), (Z.gtb_spec nd 3), (Z.ltb_spec rs 2), (Z.gtb_spec rs m); cbn [orb]; split; intros H'; try reflexivity; try lia.
  apply lookup_finds; lia.
Qed.
Print Assumptions kernel_factory_exact.

(** With the default maximum row size 8: an instance in the middle of the chain, and the two ends of the range of row sizes. *)
Example kernel_factory_example :
  kernel_factory 8 2 5 = Ok (2, 5) /\ kernel_factory 8 1 2 = Ok (1, 2) /\ kernel_factory 8 3 8 = Ok (3, 8)
  /\ kernel_factory 8 3 1 = Throw /\ kernel_factory 8 2 9 = Throw.
Proof. repeat split. Qed.
