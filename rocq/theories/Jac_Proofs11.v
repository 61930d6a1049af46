(** Shared normals of any geometry; the frustum with a bent top is a valid element. *)
From Coq Require Import Reals List Arith Lia Lra.
From Verif Require Import Outcome RSum Tensor_Model Tensor_Spec Tensor_Proofs Connection_Model Connection2_Proofs Quad_Model Quad_Spec Basis_Model Basis_Spec Spatial_Model Spatial_Spec Spatial_Proofs Spatial_Proofs2 Spatial_Proofs4 Spatial_Proofs5 Free_Spec Free_Model Free_Proofs1 Free_Proofs2 Free_Proofs3 Jac_Model Jac_Spec Jac_Proofs1 Jac_Proofs2 Jac_Proofs3 Jac_Proofs4 Jac_Proofs7 Jac_Proofs9 Jac_Proofs10.
Import ListNotations.
Local Open Scope R_scope.

Section Mesh.
Variables (m : mesh) (pos : nat -> nat -> arr) (size : nat -> R) (positive : nat -> bool) (ghosts : list nat) (conf hang bcs : list con) (st0 : nat -> arr).
Let nd := m_dim m.
Let rs := m_row_size m.
Let nfq := (rs ^ (nd - 1))%nat.
Let m' := fst (calc_jacobian m pos hang bcs st0).
Let st' := snd (calc_jacobian m pos hang bcs st0).
Hypothesis F : fits m' size positive ghosts.
Hypothesis AR : arranged m ghosts conf hang bcs.
Lemma shared_sides c j q : In c (def_cons m') -> (j < nd)%nat -> (q < nfq)%nat ->
  st' (c_face c false) (j * nfq + q)%nat = side_sign c false * con_normal nd nfq c q j /\
  fp_match nd rs nd (c_dir c) (st' (c_face c true)) (j * nfq + q)%nat = side_sign c true * con_normal nd nfq c q j.
Proof.
  intros I J Q. unfold st'. rewrite (after_st m pos hang bcs st0). unfold m' in I. rewrite (after_mesh m pos hang bcs st0) in I. cbn [def_cons] in I.
  destruct (share_all_out nd rs (def_cons m) (def_nodup m pos size positive ghosts hang bcs st0 F) (st4 m pos hang bcs st0) [] c I) as [[]|(c0 & I0 & ->)]. unfold with_normal. cbn [c_face c_deformed c_dir c_normal]. unfold con_normal, side_sign. cbn [c_face c_deformed c_dir c_normal]. rewrite (ar_def _ _ _ _ _ AR c0 I0). fold (flip_sign (c_dir c0) false) (flip_sign (c_dir c0) true). 
  rewrite <- !Rmult_assoc, flip_square, Rmult_1_l. split; [reflexivity|].
  pose proof (shared_0 m pos size positive ghosts hang bcs st0 F c0 j q I0 J Q) as E0. pose proof (shared_1 m pos size positive ghosts hang bcs st0 F c0 j q I0 J Q) as E1. unfold st5 in *. fold nd rs nfq in E0, E1. rewrite Rmult_assoc. rewrite E0, <- E1. rewrite <- Rmult_assoc, flip_square, Rmult_1_l. reflexivity.
Qed.
Lemma conf_mean c i0 f0 i1 f1 j q : In c conf -> is_face m i0 f0 (c_face c false) -> is_face m i1 f1 (c_face c true) -> (j < nd)%nat -> (q < nfq)%nat ->
  flip_sign (c_dir c) false * st' (c_face c false) (j * nfq + q)%nat
  = (flip_sign (c_dir c) false * own m pos i0 f0 (j * nfq + q)%nat + flip_sign (c_dir c) true * fp_match nd rs nd (c_dir c) (own m pos i1 f1) (j * nfq + q)%nat) / 2.
Proof.
  intros I F0 F1 J Q. unfold st'. rewrite (after_st m pos hang bcs st0). pose proof (in_def m ghosts conf hang bcs AR c (or_introl I)) as I'.
  assert (S : forall side i f k, is_face m i f (c_face c side) -> (k < nd * nfq)%nat -> st4 m pos hang bcs st0 (c_face c side) k = own m pos i f k).
  { intros side i f k FI K. pose proof (in_side c side conf I) as IS. rewrite st4_out by exact (conf_bcs m pos size positive ghosts conf hang bcs st0 F AR _ IS). rewrite st3_out by exact (conf_hang m pos size positive ghosts conf hang bcs st0 F AR _ IS).
    rewrite (st2_out m pos size positive ghosts hang bcs st0 F) by (intros X; exact (mortar_not_inner m pos size positive ghosts hang bcs st0 F _ X (ar_conf _ _ _ _ _ AR c side I))). exact (st1_own m pos size positive ghosts hang bcs st0 F i f _ k FI K). }
  pose proof (shared_0 m pos size positive ghosts hang bcs st0 F c j q I' J Q) as E. fold nd rs nfq in E. etransitivity; [exact E|]. unfold mean. rewrite (S false i0 f0) by (try assumption; now apply entry_lt).
  pose proof (fit_dim _ _ _ _ F) as N. pose proof (fit_rows _ _ _ _ F) as R2. unfold m' in N, R2. rewrite after_mesh in N, R2. cbn [m_dim m_row_size] in N, R2. fold nd in N. fold rs in R2.
  assert (R0 : (0 < rs)%nat) by lia.
  pose proof (match_value nd rs (nd + 2) (c_dir c) (st4 m pos hang bcs st0 (c_face c true)) j q N R0 ltac:(lia) Q) as M1. pose proof (match_value nd rs nd (c_dir c) (own m pos i1 f1) j q N R0 J Q) as M2. cbv zeta in M1, M2. fold nfq in M1, M2. rewrite M1, M2. rewrite (S true i1 f1); [field|exact F1|]. apply entry_lt; [exact J|]. apply face_transpose_good; try assumption; now apply face_flip_good.
Qed.
End Mesh.

Lemma gauss4_mirrored : mirrored 4 gauss4_node.
Proof. intros i I. destruct i as [|[|[|[|i]]]]; cbn; try lra; lia. Qed.
Lemma bulged_valid ratio q : (q < 64)%nat -> 0 < set_det 3 4 (basis_on 4 gauss4_node gauss4_weight ratio) 1 bulged q.
Proof.
  intros Q. unfold set_det, determinant. destruct (jac_is ratio q Q) as (-> & -> & -> & -> & -> & -> & -> & -> & ->).
  assert (P : forall c, 0 < coord q c < 1). { intros c. unfold coord. destruct g_values as (S & PS & A & PA & B & AB). assert (g_b < 1) by nra. destruct (digit 4 3 c q) as [|[|[|d]]]; cbn; lra. }
  assert (G : 0 < gg (coord q 0)) by (unfold gg; pose proof (P 0%nat); apply Rmult_lt_0_compat; nra). pose proof (P 2%nat) as P2. assert (0 < coord q 2 * gg (coord q 0)) by now apply Rmult_lt_0_compat.
  assert (0 < (1 + coord q 2 * gg (coord q 0)) * gg (coord q 0)) by (apply Rmult_lt_0_compat; lra). lra.
Qed.
Lemma hump_gentle : gentle 3 hump.
Proof.
  unfold gentle, polynomial, slope, hump. cbn [rsum INR pow Nat.sub]. split; [ring|]. split; [ring|]. intros x X. split; [rewrite Rabs_pos_eq by nra; nra|]. apply Rabs_le. lra.
Qed.
