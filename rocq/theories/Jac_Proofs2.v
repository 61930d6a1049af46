(** Restriction undoes prolongation on faces of any dimension. *)
From Coq Require Import Reals List Arith Lia Lra FunctionalExtensionality Permutation.
From Verif Require Import Outcome RSum Tensor_Model Tensor_Spec Tensor_Proofs Row_Model Row_Spec Row_Proofs Connection_Model Basis_Spec Basis_Proofs Quad_Model Quad_Spec Quad_Proofs Spatial_Model Spatial_Spec Spatial_Proofs Spatial_Proofs2 Spatial_Proofs3 Spatial_Proofs4 Spatial_Proofs5 Spatial_Proofs6 Free_Spec Free_Model Free_Proofs1 Free_Proofs2 Free_Proofs4 Jac_Model Jac_Spec.
Import ListNotations.
Local Open Scope R_scope.

Lemma face_rows_row nd rs id m a q : (0 < rs)%nat -> (id < nd - 1)%nat -> (q < rs ^ (nd - 1))%nat ->
  face_rows nd rs (rs ^ (nd - 2 - id)) m a q = rsum rs (fun i => m (digit rs (nd - 1) id q) i * a (along (nd - 1) rs id q i)).
Proof.
  intros R I Q. assert (FL : (foot (nd - 1) rs id q < rs ^ (nd - 2))%nat) by (replace (nd - 2)%nat with (nd - 1 - 1)%nat by lia; now apply foot_lt).
  rewrite <- (own_row (nd - 1) rs id q R I) at 1. rewrite face_rows_value by (try assumption; now apply digit_lt). unfold mat_vec. apply rsum_ext. intros i L. destruct (along_row (nd - 1) rs id q i) as [<-|]; [|lia]. reflexivity.
Qed.
(** one row of a line, and of a square in each direction *)
Lemma rows_1 rs m a q : (0 < rs)%nat -> (q < rs)%nat -> face_rows 2 rs (rs ^ 0) m a q = rsum rs (fun i => m q i * a i).
Proof.
  intros R Q. pose proof (face_rows_row 2 rs 0 m a q R ltac:(lia) ltac:(cbn; lia)) as H. cbn [Nat.sub] in H. rewrite H. apply rsum_ext. intros i I. unfold digit, along. cbn [Nat.sub]. rewrite !Nat.pow_0_r, Nat.div_1_r, Nat.mod_1_r, !Nat.mul_1_l, Nat.mod_small by exact Q. rewrite Nat.div_small by exact Q. f_equal. f_equal. lia.
Qed.
Lemma rows_2_0 rs m a x y : (x < rs)%nat -> (y < rs)%nat -> face_rows 3 rs (rs ^ 1) m a (x * rs + y)%nat = rsum rs (fun i => m x i * a (i * rs + y)%nat).
Proof.
  intros X Y. pose proof (face_rows_row 3 rs 0 m a (x * rs + y) ltac:(lia) ltac:(lia) ltac:(cbn; nia)) as H. cbn [Nat.sub] in H. rewrite H. apply rsum_ext. intros i I. unfold digit, along. cbn [Nat.sub]. rewrite !Nat.pow_1_r. rewrite flat_div by exact Y. rewrite flat_mod by exact Y. rewrite Nat.mod_small by exact X. rewrite Nat.div_small by nia. f_equal. f_equal. lia.
Qed.
Lemma rows_2_1 rs m a x y : (x < rs)%nat -> (y < rs)%nat -> face_rows 3 rs (rs ^ 0) m a (x * rs + y)%nat = rsum rs (fun i => m y i * a (x * rs + i)%nat).
Proof.
  intros X Y. pose proof (face_rows_row 3 rs 1 m a (x * rs + y) ltac:(lia) ltac:(lia) ltac:(cbn; nia)) as H. cbn [Nat.sub] in H. rewrite H. apply rsum_ext. intros i I. unfold digit, along. cbn [Nat.sub]. rewrite !Nat.pow_0_r, Nat.div_1_r, Nat.mod_1_r, !Nat.mul_1_l. rewrite flat_div by exact Y. rewrite flat_mod by exact Y. f_equal. f_equal. lia.
Qed.
Section Undo.
Variables (rs : nat) (re pr : nat -> nat -> nat -> R).
Hypothesis RS : (0 < rs)%nat.
(** in one dimension *)
Hypothesis UNDO : forall v i, (i < rs)%nat -> rsum rs (fun j => re 0%nat i j * rsum rs (fun k => pr 0%nat j k * v k)) + rsum rs (fun j => re 1%nat i j * rsum rs (fun k => pr 1%nat j k * v k)) = v i.
Lemma undo_square h0 h1 (a : arr) x y : (x < rs)%nat -> (y < rs)%nat ->
  face_rows 3 rs (rs ^ 0) (re h1) (face_rows 3 rs (rs ^ 1) (re h0) (face_rows 3 rs (rs ^ 0) (pr h1) (face_rows 3 rs (rs ^ 1) (pr h0) a))) (x * rs + y)%nat
  = rsum rs (fun j1 => re h1 y j1 * rsum rs (fun k1 => pr h1 j1 k1 * rsum rs (fun j0 => re h0 x j0 * rsum rs (fun k0 => pr h0 j0 k0 * a (k0 * rs + k1)%nat)))).
Proof.
  intros X Y. rewrite rows_2_1 by assumption. apply rsum_ext. intros j1 J1. f_equal. rewrite rows_2_0 by assumption.
  rewrite (rsum_ext rs _ (fun j0 => rsum rs (fun k1 => re h0 x j0 * (pr h1 j1 k1 * rsum rs (fun k0 => pr h0 j0 k0 * a (k0 * rs + k1)%nat))))).
  - rewrite rsum_swap. apply rsum_ext. intros k1 K1. rewrite <- rsum_scal. apply rsum_ext. intros. ring.
  - intros j0 J0. rewrite rows_2_1 by assumption. rewrite <- rsum_scal. apply rsum_ext. intros k1 K1. now rewrite rows_2_0.
Qed.
Lemma undo_refined nd str a q : (1 <= nd <= 3)%nat -> (q < rs ^ (nd - 1))%nat ->
  rsum (n_fine nd str) (fun k => face_dims nd rs str (fun x => x / 2) re k (face_dims nd rs str (fun x => x * 2) pr k a) q) = a q.
Proof.
  intros N Q. destruct nd as [|[|[|[|nd]]]]; try lia.
  - unfold n_fine, face_dims, loop. cbn [Nat.sub seq fold_left Nat.pow rsum]. ring.
  - unfold n_fine, face_dims, loop. cbn [Nat.sub seq fold_left]. cbn [Nat.sub] in Q. rewrite Nat.pow_1_r in Q. destruct (str 0%nat) eqn:S0.
    + change (2 ^ 1 / (1 + Nat.b2n true))%nat with 1%nat. cbn [rsum]. field.
    + change (2 ^ 1 / (1 + Nat.b2n false))%nat with 2%nat. cbn [rsum]. unfold half_of. cbn [Nat.sub]. rewrite S0. change ((0 / 2 ^ 0) mod 2)%nat with 0%nat. change ((1 / 2 ^ 0) mod 2)%nat with 1%nat. rewrite !rows_1 by assumption. rewrite Rplus_0_l. rewrite <- (UNDO a q Q).
      f_equal; apply rsum_ext; intros j J; now rewrite rows_1.
  - assert (Q2 : (q < rs ^ 2)%nat) by (cbn in Q |- *; lia). destruct (pair_split rs q Q2) as (X & Y & E). rewrite E. set (x := (q / rs)%nat) in *. set (y := (q mod rs)%nat) in *. clearbody x y. clear q Q Q2 E.
    unfold n_fine, face_dims, loop. cbn [Nat.sub seq fold_left]. destruct (str 0%nat) eqn:S0, (str 1%nat) eqn:S1.
    + change (2 ^ 2 / (1 + Nat.b2n true) / (1 + Nat.b2n true))%nat with 1%nat. cbn [rsum]. field.
    + change (2 ^ 2 / (1 + Nat.b2n true) / (1 + Nat.b2n false))%nat with 2%nat. cbn [rsum]. unfold half_of. cbn [Nat.sub]. rewrite S1. change ((0 / 2 ^ 0) mod 2)%nat with 0%nat. change ((1 / 2 ^ 0) mod 2)%nat with 1%nat. rewrite !rows_2_1 by assumption. rewrite Rplus_0_l. rewrite <- (UNDO (fun i => a (x * rs + i)%nat) y Y).
      f_equal; apply rsum_ext; intros j J; rewrite rows_2_1 by assumption; f_equal; unfold Rdiv; rewrite <- rsum_scal_r; apply rsum_ext; intros k K; field.
    + change (2 ^ 2 / (1 + Nat.b2n false) / (1 + Nat.b2n true))%nat with 2%nat. cbn [rsum]. unfold half_of. cbn [Nat.sub]. rewrite S1. change ((0 / 1) mod 2)%nat with 0%nat. change ((1 / 1) mod 2)%nat with 1%nat. rewrite !rows_2_0 by assumption. rewrite Rplus_0_l. rewrite <- (UNDO (fun i => a (i * rs + y)%nat) x X).
      unfold Rdiv. f_equal; rewrite <- rsum_scal_r; apply rsum_ext; intros j J; rewrite rows_2_0 by assumption; field.
    + change (2 ^ 2 / (1 + Nat.b2n false) / (1 + Nat.b2n false))%nat with 4%nat. cbn [rsum]. unfold half_of. cbn [Nat.sub]. rewrite S1.
      change ((0 / 2 ^ 1) mod 2)%nat with 0%nat. change ((0 / 2 ^ 0) mod 2)%nat with 0%nat. change ((1 / 2 ^ 1) mod 2)%nat with 0%nat. change ((1 / 2 ^ 0) mod 2)%nat with 1%nat.
      change ((2 / 2 ^ 1) mod 2)%nat with 1%nat. change ((2 / 2 ^ 0) mod 2)%nat with 0%nat. change ((3 / 2 ^ 1) mod 2)%nat with 1%nat. change ((3 / 2 ^ 0) mod 2)%nat with 1%nat.
      rewrite !undo_square by assumption.
      transitivity (rsum rs (fun j1 => re 0%nat y j1 * rsum rs (fun k1 => pr 0%nat j1 k1 * a (x * rs + k1)%nat)) + rsum rs (fun j1 => re 1%nat y j1 * rsum rs (fun k1 => pr 1%nat j1 k1 * a (x * rs + k1)%nat))); [|apply (UNDO (fun i => a (x * rs + i)%nat) y Y)].
      assert (Z : forall h1, rsum rs (fun j1 => re h1 y j1 * rsum rs (fun k1 => pr h1 j1 k1 * a (x * rs + k1)%nat))
        = rsum rs (fun j1 => re h1 y j1 * rsum rs (fun k1 => pr h1 j1 k1 * rsum rs (fun j0 => re 0%nat x j0 * rsum rs (fun k0 => pr 0%nat j0 k0 * a (k0 * rs + k1)%nat))))
        + rsum rs (fun j1 => re h1 y j1 * rsum rs (fun k1 => pr h1 j1 k1 * rsum rs (fun j0 => re 1%nat x j0 * rsum rs (fun k0 => pr 1%nat j0 k0 * a (k0 * rs + k1)%nat))))).
      { intros h1. rewrite <- rsum_plus. apply rsum_ext. intros j1 J1. rewrite <- Rmult_plus_distr_l. f_equal. rewrite <- rsum_plus. apply rsum_ext. intros k1 K1. rewrite <- Rmult_plus_distr_l. f_equal. symmetry. apply (UNDO (fun i => a (i * rs + k1)%nat) x X). }
      rewrite !Z. ring.
Qed.
End Undo.
Lemma legendre_undo rs node w v i : (0 < rs)%nat -> as_legendre rs node w -> (i < rs)%nat ->
  rsum rs (fun j => py_restrict rs node w i j 0 * rsum rs (fun k => py_prolong rs node j k 0 * v k)) + rsum rs (fun j => py_restrict rs node w i j 1 * rsum rs (fun k => py_prolong rs node j k 1 * v k)) = v i.
Proof.
  intros R [RU IN] I. rewrite <- (restrict_prolong rs node w v R RU (integrates_le rs node w (2 * rs) (2 * rs - 1) ltac:(lia) IN) i I). unfold restricted. cbn [rsum]. unfold prolonged, mat_vec. ring.
Qed.
