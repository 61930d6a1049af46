(** C34, C49: Layer_sequence *)
From Coq Require Import Reals ZArith Lra Lia.
From Verif Require Import Layer_Model Layer_Proofs.
Local Open Scope R_scope.

#[local] Ltac pw := cbn; unfold Pos.to_nat; cbn; lra.

(** C49. The wall layers have the wall spacing, every further layer is twice as high as the one before. *)
Theorem layer_spacing : forall ws nw i,
  ((i < nw)%Z -> spacing ws nw i = ws) /\ ((nw <= i)%Z -> spacing ws nw (i + 1) = 2 * spacing ws nw i).
Proof. intros ws nw i. split; [apply spacing_wall|apply spacing_double]. Qed.
Print Assumptions layer_spacing.

Theorem layer_spacing_positive : forall ws nw i, 0 < ws -> ws * IZR nw <= 1 -> 0 < spacing ws nw i.
Proof. exact spacing_pos. Qed.
Print Assumptions layer_spacing_positive.

(** C49. The number of growth layers is the number of halvings after which the unit height is at most twice the wall spacing. *)
Theorem layer_n_grow : forall ws g, 0 < ws -> (n_grow ws = g <-> ws < powerRZ 2 (- g) <= 2 * ws).
Proof.
  intros ws g Hw. split; [intros <-; now apply n_grow_spec|now apply n_grow_unique].
Qed.
Print Assumptions layer_n_grow.

(** C49. The exact total height. *)
Theorem layer_total_height : forall ws nw, 0 < ws <= 1 / 2 -> (0 <= nw)%Z ->
  cumulative_height ws nw (n_layers ws nw) = 1 + powerRZ 2 (- n_grow ws) * (ws * IZR nw - powerRZ 2 (- n_grow ws)).
Proof. exact total_height. Qed.
Print Assumptions layer_total_height.

(** C34, full statement: forall ws nw, 0 < ws <= 1/2 -> 0 <= nw -> cumulative_height ws nw (n_layers ws nw) = 1. False: *)
Theorem layer_fills_unit_refuted : cumulative_height (1 / 4) 1 (n_layers (1 / 4) 1) = 7 / 8.
Proof.
  assert (G : n_grow (1 / 4) = 1%Z). { apply layer_n_grow; [lra|]. pw. }
  rewrite total_height by (lra || lia). rewrite G. pw.
Qed.
Print Assumptions layer_fills_unit_refuted.

(** C34, the part that is true: exactly if the wall layers together are as high as the first growth layer would be in a sequence
    of halvings of 1. *)
Theorem layer_fills_unit_partial : forall ws nw, 0 < ws <= 1 / 2 -> (0 <= nw)%Z ->
  (cumulative_height ws nw (n_layers ws nw) = 1 <-> ws * IZR nw = powerRZ 2 (- n_grow ws)).
Proof.
  intros ws nw Hw Hn. rewrite total_height by assumption. pose proof (pow2_pos (- n_grow ws)) as P. split.
  - intros H. assert (E : powerRZ 2 (- n_grow ws) * (ws * IZR nw - powerRZ 2 (- n_grow ws)) = 0) by lra.
    apply Rmult_integral in E. destruct E; lra.
  - intros H. rewrite H. ring.
Qed.
Print Assumptions layer_fills_unit_partial.

(** With two wall layers of 1/8 the layers are 1/8, 1/8, 1/4, 1/2. *)
Example layer_example : n_layers (1 / 8) 2 = 4%Z /\ spacing (1 / 8) 2 1 = 1 / 8 /\ spacing (1 / 8) 2 2 = 1 / 4
  /\ spacing (1 / 8) 2 3 = 1 / 2 /\ cumulative_height (1 / 8) 2 4 = 1.
Proof.
  assert (G : n_grow (1 / 8) = 2%Z). { apply layer_n_grow; [lra|]. pw. }
  assert (N : n_layers (1 / 8) 2 = 4%Z) by (unfold n_layers; rewrite G; reflexivity).
  split; [exact N|]. unfold cumulative_height, spacing. rewrite N. cbn; unfold Pos.to_nat; cbn. repeat split; unfold Pos.to_nat; cbn; lra.
Qed.
