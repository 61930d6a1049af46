(** Meshes of elements given by their vertices: the normals agree and close. *)
From Coq Require Import Reals List Arith Bool ZArith Lia Lra FunctionalExtensionality.
From Verif Require Import Outcome RSum Tensor_Model Tensor_Spec Tensor_Proofs Row_Model Row_Spec Row_Proofs Connection_Model Connection_Spec Connection_Proofs Connection2_Proofs Basis_Model Basis_Spec Basis_Proofs Quad_Model Quad_Spec Quad_Proofs Spatial_Model Spatial_Spec Spatial_Proofs Spatial_Proofs2 Spatial_Proofs3 Spatial_Proofs4 Free_Spec Free_Proofs1 Free_Proofs2 Free_Proofs4 Jac_Model Jac_Spec Jac_Proofs1 Jac_Proofs2 Jac_Proofs3 Jac_Proofs4 Jac_Proofs5 Jac_Proofs6 Jac_Proofs7.
Import ListNotations.
Local Open Scope R_scope.

(** one element *)
Lemma flat_closed nd rs node w ratio e pos : (0 < rs)%nat -> distinct rs node -> e_deformed e = false -> closed_element nd rs (basis_on rs node w ratio) e (own_normal nd rs (basis_on rs node w ratio) e pos).
Proof.
  intros RS D DE j q J Q. rewrite (rsum_ext nd _ (fun _ => 0)); [apply rsum_0|]. intros d DD.
  erewrite derivative_ext; [apply (derivative_const rs node w ratio (if (d =? j)%nat then 1 else 0)); [exact RS|exact D|now apply digit_lt]| |].
  - intros k K. unfold local_normal. rewrite DE. reflexivity.
  - intros s S. unfold own_normal. rewrite DE. rewrite flat_div by now apply foot_lt. replace ((2 * d + s) / 2)%nat with d by (apply (Nat.div_unique _ 2 d s); lia). now rewrite Nat.eqb_sym.
Qed.

Section Vertices.
Variables (m : mesh) (pos : nat -> nat -> arr) (size : nat -> R) (positive : nat -> bool) (ghosts : list nat) (conf hang bcs : list con) (st0 : nat -> arr) (node w : nat -> R) (ratio : R) (v : nat -> nat -> arr).
Let nd := m_dim m.
Let rs := m_row_size m.
Let nfq := (rs ^ (nd - 1))%nat.
Hypothesis F : fits (fst (calc_jacobian m pos hang bcs st0)) size positive ghosts.
Hypothesis AR : arranged m ghosts conf hang bcs.
Hypothesis B : m_basis m = basis_on rs node w ratio.
Hypothesis D : distinct rs node.
Hypothesis MI : mirrored rs node.
Hypothesis N2 : (2 <= nd)%nat.
Hypothesis BV : by_vertices m node pos v conf hang.
Let FM := fits_mid m pos size positive ghosts hang bcs st0 F.
Let N : (2 <= nd <= 3)%nat. Proof. pose proof (fit_dim _ _ _ _ FM) as H. cbn in H. unfold nd in *. lia. Qed.
Let RS : (2 <= rs)%nat. Proof. exact (fit_rows _ _ _ _ FM). Qed.
Lemma size_pos i : In i (elems m) -> e_size (m_elem m i) <> 0.
Proof. intros I. pose proof (proj1 (fit_elem _ _ _ _ FM i I)) as H. cbn [m_elem mid] in H. now rewrite set_size in H. Qed.
Lemma size_face i f id : is_face m i f id -> size id = e_size (m_elem m i).
Proof. intros (I & K & <-). destruct (fit_elem _ _ _ _ FM i I) as (_ & _ & H). cbn [m_elem mid m_dim] in H. rewrite set_size, set_face in H. now apply H. Qed.
Lemma own_is i d s j q : In i (elems m) -> (d < nd)%nat -> (s < 2)%nat -> (j < nd)%nat -> (q < nfq)%nat ->
  own_normal (m_dim m) (m_row_size m) (m_basis m) (m_elem m i) (pos i) (2 * d + s) (j * nfq + q)%nat = cof nd (v i) (e_size (m_elem m i)) d j (there nd rs node d s q).
Proof.
  intros I DD S J Q. unfold own_normal. destruct (e_deformed (m_elem m i)) eqn:DE.
  - rewrite B. apply face_is; try assumption. intros r p RR Pp. rewrite (vt_pos _ _ _ _ _ _ BV i r p I DE RR Pp). now apply position_multilinear.
  - fold nd rs nfq. rewrite flat_div by exact Q. replace ((2 * d + s) / 2)%nat with d by (apply (Nat.div_unique _ 2 d s); lia). destruct (vt_car _ _ _ _ _ _ BV i I DE) as (x & V). symmetry. apply (flat_cof nd (v i) x); try assumption; now apply size_pos.
Qed.
Lemma b2n_lt (b : bool) : (Nat.b2n b < 2)%nat. Proof. destruct b; cbn; lia. Qed.
Lemma coarse_is i d s str k j q : In i (elems m) -> (d < nd)%nat -> (s < 2)%nat -> (j < nd)%nat -> (q < nfq)%nat ->
  of_coarse m (own_normal (m_dim m) (m_row_size m) (m_basis m) (m_elem m i) (pos i) (2 * d + s)) str k j q = cof nd (part nd d str k (v i)) (e_size (m_elem m i) / 2) d j (there nd rs node d s q).
Proof.
  intros I DD S J Q. unfold of_coarse. rewrite (part_cof nd rs node (e_size (m_elem m i)) (v i) d s j str k N RS DD J q (size_pos i I)).
  pose proof (coarse_value nd rs node w ratio (e_size (m_elem m i)) (v i) d s j str k N RS D DD J) as H. cbv beta in H. rewrite <- B in H. apply H; [exact Q|].
  intros p Pp. unfold var_of. fold nd rs. rewrite own_is by assumption. apply cof_ext; [exact N|]. intros l L. reflexivity.
Qed.
Lemma vertices_agree : agreeing m pos conf hang.
Proof.
  assert (R0 : (0 < rs)%nat) by (pose proof RS; lia). assert (N1 : (1 <= nd <= 3)%nat) by (pose proof N; lia).
  constructor; fold nd rs nfq.
  - intros c i0 f0 i1 f1 j q C F0 F1 J Q. destruct (vt_conf _ _ _ _ _ _ BV c i0 f0 i1 f1 C F0 F1) as (A & -> & -> & M). pose proof A as (A0 & A1 & _).
    rewrite (match_value nd rs nd (c_dir c) _ j q N1 R0 J Q). destruct (joined_match nd rs node (c_dir c) q N R0 MI A Q) as [Pp JM]. cbv zeta in Pp, JM.
    unfold i_face, i_dim, face_sign. fold nfq. fold nfq in Pp. rewrite !own_is; try assumption; try apply b2n_lt; [|apply F1|apply F0].
    replace (e_size (m_elem m i1)) with (e_size (m_elem m i0)); [now apply joined_normal|].
    rewrite <- (size_face i0 _ _ F0), <- (size_face i1 _ _ F1). apply (fit_cons _ _ _ _ FM c). apply in_or_app. right. cbn [def_cons mid]. apply (Permutation.Permutation_in _ (Permutation.Permutation_sym (ar_split _ _ _ _ _ AR))). apply in_or_app. now left.
  - intros c r k i0 f0 i1 f1 j q C Ir K E F0 F1 J Q. destruct (vt_hang _ _ _ _ _ _ BV c r k i0 f0 i1 f1 C Ir K E F0 F1) as (A & -> & -> & M). pose proof A as (A0 & A1 & _).
    rewrite (match_value nd rs nd (c_dir c) _ j q N1 R0 J Q). destruct (joined_match nd rs node (c_dir c) q N R0 MI A Q) as [Pp JM]. cbv zeta in Pp, JM.
    unfold i_face, i_dim, face_sign. fold nfq. fold nfq in Pp. rewrite own_is; try assumption; try apply b2n_lt; [|apply F1]. rewrite coarse_is; try assumption; try apply b2n_lt; [|apply F0].
    replace (e_size (m_elem m i1)) with (e_size (m_elem m i0) / 2); [now apply joined_normal|].
    rewrite <- (size_face i0 _ _ F0), <- (size_face i1 _ _ F1). transitivity (size (c_face c false)).
    + rewrite E. symmetry. apply (fit_refined _ _ _ _ FM r k Ir K).
    + apply (fit_cons _ _ _ _ FM c). apply in_or_app. right. cbn [def_cons mid]. apply (Permutation.Permutation_in _ (Permutation.Permutation_sym (ar_split _ _ _ _ _ AR))). apply in_or_app. right. apply in_or_app. now left.
  - intros c side i f j q C FI J Q. destruct (vt_flat _ _ _ _ _ _ BV c side i f C FI) as [DE FD]. unfold own_normal. rewrite DE. fold nd rs nfq. rewrite flat_div by exact Q. now rewrite FD.
  - intros c side r k i f j q C Ir K E FI J Q. destruct (vt_mortar _ _ _ _ _ _ BV c side r k i f C Ir K E FI) as (DE & FD & ST). destruct FI as (I & K0 & _). fold nd in K0.
    pose proof (Nat.div_mod_eq f 2) as FE. set (d := (f / 2)%nat) in *. set (s := (f mod 2)%nat) in *. assert (S : (s < 2)%nat) by (apply Nat.mod_upper_bound; lia). assert (DD : (d < nd)%nat) by lia.
    pose proof (coarse_value nd rs node w ratio (e_size (m_elem m i)) (v i) d s j (r_stretch r) k N RS D DD J (var_of nfq j (own_normal nd rs (m_basis m) (m_elem m i) (pos i) f)) q Q) as H. cbv beta in H. rewrite <- B in H. unfold of_coarse. fold nd rs nfq. rewrite H.
    + destruct (vt_car _ _ _ _ _ _ BV i I DE) as (x & V). rewrite (flat_cof nd (v i) x) by first [assumption|exact N|now apply size_pos]. rewrite FD.
      assert (FA : forall n, (n <= nd - 1)%nat -> fac (r_stretch r) n = 1) by (induction n as [|n IH]; intros L; [reflexivity|]; cbn [fac]; rewrite IH by lia; rewrite ST by (fold nd; lia); ring). rewrite FA by lia. ring.
    + intros p Pp. unfold var_of. rewrite FE. unfold nd, rs. rewrite own_is by assumption. apply cof_ext; [exact N|]. intros l L. reflexivity.
Qed.
Hypothesis LG : as_legendre rs node w.
Lemma vertices_element i : In i (elems m) -> closed_element nd rs (m_basis m) (set_elem m pos i) (own m pos i).
Proof.
  intros I. unfold own. destruct (e_deformed (m_elem m i)) eqn:DE.
  - unfold own_normal. rewrite DE. assert (H : nd = 2%nat \/ nd = 3%nat) by (pose proof N; lia).
    assert (E1 : e_deformed (set_elem m pos i) = true) by now rewrite set_deformed. assert (E2 : e_nrml (set_elem m pos i) = set_nrml nd rs (m_basis m) (e_size (m_elem m i)) (pos i)) by (unfold set_elem; rewrite DE; reflexivity).
    assert (P : forall r q, (r < nd)%nat -> (q < rs ^ nd)%nat -> pos i r q = multilinear nd (v i r) (here nd rs node q)) by (intros r q RR Q; rewrite (vt_pos _ _ _ _ _ _ BV i r q I DE RR Q); apply position_multilinear; exact N).
    fold nd rs. revert E2 P. clearbody nd. destruct H as [-> | ->]; intros E2 P.
    + apply plane_closed; [pose proof RS; lia|exact E1|exact E2].
    + rewrite B in *. apply (solid_closed rs node w ratio _ _ (v i)); assumption.
  - fold nd rs. rewrite B. replace (set_elem m pos i) with (m_elem m i) by (unfold set_elem; now rewrite DE). apply flat_closed; [pose proof RS; lia|exact D|exact DE].
Qed.
Lemma vertices_closed : closed (fst (calc_jacobian m pos hang bcs st0)) (snd (calc_jacobian m pos hang bcs st0)).
Proof. exact (after_closed m pos size positive ghosts conf hang bcs st0 F AR node w ratio B vertices_agree LG vertices_element). Qed.
End Vertices.
