(** Integrals over surfaces. *)
From Coq Require Import Reals List Arith Lia Lra.
From Coquelicot Require Import Coquelicot.
From Verif Require Import Outcome ListUtil Loop RSum Tensor_Model Tensor_Spec Tensor_Proofs Basis_Spec Basis_Proofs Quad_Model Quad_Spec Quad_Proofs Connection_Model Connection_Spec Spatial_Model Spatial_Spec Spatial_Proofs2 Spatial_Proofs5 Free_Spec Jac_Model Jac_Spec
  Jac_Proofs1 Jac_Proofs2 Jac_Proofs3 Jac_Proofs4 Jac_Proofs5 Jac_Proofs7 Jac_Proofs8 Jac_Proofs11 Integral_Model Integral_Spec Integral_Proofs1 Integral_Proofs2.
Import ListNotations.
Local Open Scope R_scope.

Lemma loop_sum n (f : nat -> R) x : loop n (fun i s => s + f i) x = x + rsum n f.
Proof. unfold loop. induction n as [|n IH]; [cbn; ring|]. rewrite seq_S, fold_left_app, IH. cbn. ring. Qed.
Definition magnitude (nd nfq : nat) (a : arr) (q : nat) : R := sqrt (rsum nd (fun j => a (j * nfq + q)%nat ^ 2)).
Lemma surface_total fuel m l n_int f sn : (0 < m_row_size m)%nat -> (1 <= m_dim m)%nat -> (m_dim m <= fuel)%nat ->
  (forall c q, In c l -> bd_sn c = sn -> (q < m_row_size m ^ (m_dim m - 1))%nat -> length (f c q) = n_int) ->
  exists r, integral_surface fuel m l n_int f sn = Ok r /\ length r = n_int /\ forall v, (v < n_int)%nat ->
    nth v r 0 = lsum (fun c => e_size (m_elem m (bd_elem c)) ^ (m_dim m - 1) * rsum (m_row_size m ^ (m_dim m - 1)) (fun q => outer_power (m_row_size m) (b_weight (m_basis m)) (m_dim m - 1) q * nth v (f c q) 0 * magnitude (m_dim m) (m_row_size m ^ (m_dim m - 1)) (c_normal (bd_con c)) q))
      (filter (fun c => (bd_sn c =? sn)%nat) l).
Proof.
  intros RS ND FU LE. unfold integral_surface. set (nd := m_dim m) in *. set (rs := m_row_size m) in *. assert (NF : (rs ^ nd / rs = rs ^ (nd - 1))%nat). { replace nd with (S (nd - 1)) at 1 by lia. cbn [Nat.pow]. rewrite Nat.mul_comm, Nat.div_mul by lia. reflexivity. }
  rewrite NF. destruct (pow_outer_main rs (b_weight (m_basis m)) (nd - 1) fuel RS ltac:(lia)) as (weights & -> & W). cbn [bind].
  apply adds_start. set (g := fun c v => e_size (m_elem m (bd_elem c)) ^ (nd - 1) * rsum (rs ^ (nd - 1)) (fun q => outer_power rs (b_weight (m_basis m)) (nd - 1) q * nth v (f c q) 0 * magnitude nd (rs ^ (nd - 1)) (c_normal (bd_con c)) q)).
  eapply adds_ext; [apply (adds_fold n_int _ (fun c v => if (bd_sn c =? sn)%nat then g c v else 0))|].
  - intros c C. destruct (Nat.eqb_spec (bd_sn c) sn) as [E|NE].
    + eapply adds_ext; [apply (adds_fold n_int _ (fun q v => nth v (f c q) 0 * weights q * e_size (m_elem m (bd_elem c)) ^ (nd - 1) * magnitude nd (rs ^ (nd - 1)) (c_normal (bd_con c)) q))|].
      * intros q Q. apply in_seq in Q. cbv zeta. rewrite loop_sum, Rplus_0_l. fold (magnitude nd (rs ^ (nd - 1)) (c_normal (bd_con c)) q).
        apply (vars_adds n_int (f c q) (fun x => x * weights q * e_size (m_elem m (bd_elem c)) ^ (nd - 1) * magnitude nd (rs ^ (nd - 1)) (c_normal (bd_con c)) q)). apply LE; [exact C|exact E|lia].
      * intros v V. cbv beta. rewrite lsum_seq. unfold g. rewrite <- rsum_scal. apply rsum_ext. intros q Q. rewrite W by exact Q. ring.
    + intros s S. exists s. split; [reflexivity|]. split; [exact S|]. intros v V. ring.
  - intros v V. cbv beta. clear LE. induction l as [|c l IH]; [reflexivity|]. cbn [filter]. rewrite lsum_cons, IH. destruct (bd_sn c =? sn)%nat; [reflexivity|ring].
Qed.

(** ** the length of a boundary *)
Lemma cof_length n v s d x : n = 2%nat -> s <> 0 -> (d < 2)%nat -> rsum n (fun j => cof n v s d j x ^ 2) = (tang 2 (v 0%nat) (1 - d) x ^ 2 + tang 2 (v 1%nat) (1 - d) x ^ 2) / s ^ 2.
Proof.
  intros -> S D. destruct d as [|[|d]]; try lia; unfold cof, determinant, unit_col; cbn [rsum Nat.eqb Nat.sub]; field; exact S.
Qed.
Lemma tang_edge v d s x : (d < 2)%nat -> (s < 2)%nat -> x d = INR s ->
  tang 2 (v 0%nat) (1 - d) x ^ 2 + tang 2 (v 1%nat) (1 - d) x ^ 2 = let '(a, b) := nth (2 * d + s) [(0, 1); (2, 3); (0, 2); (1, 3)]%nat (0, 0)%nat in (v 0%nat b - v 0%nat a) ^ 2 + (v 1%nat b - v 1%nat a) ^ 2.
Proof.
  intros D S X. destruct d as [|[|d]]; try lia; destruct s as [|[|s]]; try lia; cbn [Nat.mul Nat.add nth]; unfold tang, multilinear, vertex_weight, setx; cbn in *; rewrite X; ring.
Qed.
Section Length.
Variables (m : mesh) (pos : nat -> nat -> arr) (size : nat -> R) (positive : nat -> bool) (ghosts : list nat) (conf hang bcs : list con) (st0 : nat -> arr) (node w : nat -> R) (ratio : R) (v : nat -> nat -> arr).
Let nd := m_dim m.
Let rs := m_row_size m.
Let m' := fst (calc_jacobian m pos hang bcs st0).
Hypothesis F : fits m' size positive ghosts.
Hypothesis AR : arranged m ghosts conf hang bcs.
Hypothesis B : m_basis m = basis_on rs node w ratio.
Hypothesis LG : as_legendre rs node w.
Hypothesis MI : mirrored rs node.
Hypothesis N2 : nd = 2%nat.
Hypothesis BV : by_vertices m node pos v conf hang.
Hypothesis SP : forall i, In i (elems m) -> 0 < e_size (m_elem m i).
Let D : distinct rs node := proj1 (proj1 LG).
Let AG := vertices_agree m pos size positive ghosts conf hang bcs st0 node w ratio v F AR B D MI ltac:(fold nd; lia) BV.
Lemma normal_own c i f j q : In c (def_cons m') -> is_face m i f (c_face c false) -> (j < nd)%nat -> (q < rs ^ (nd - 1))%nat ->
  c_normal c (j * rs ^ (nd - 1) + q)%nat = own_normal nd rs (m_basis m) (m_elem m i) (pos i) f (j * rs ^ (nd - 1) + q)%nat.
Proof.
  intros C FI J Q. destruct (shared_sides m pos size positive ghosts conf hang bcs st0 F AR c j q C J Q) as (S0 & _). fold nd rs in S0.
  rewrite (after_st m pos hang bcs st0) in S0.
  pose proof (inner_final m pos size positive ghosts conf hang bcs st0 F AR AG i f _ j q FI J Q) as IF. unfold own in IF. fold nd rs in IF. rewrite <- IF, S0.
  unfold con_normal. assert (DC : c_deformed c = true). { pose proof C as C'. unfold m' in C'. rewrite (after_mesh m pos hang bcs st0) in C'. cbn [def_cons] in C'. destruct (share_all_out nd rs (def_cons m) (def_nodup m pos size positive ghosts hang bcs st0 F) (st4 m pos hang bcs st0) [] c C') as [[]|(c0 & I0 & ->)]. exact (ar_def _ _ _ _ _ AR c0 I0). }
  rewrite DC. fold nd rs. rewrite <- Rmult_assoc. unfold side_sign. rewrite DC. destruct (flip_normal (c_dir c) false); ring.
Qed.
Lemma edge_magnitude c i d s q : In c (def_cons m') -> is_face m i (2 * d + s) (c_face c false) -> (d < 2)%nat -> (s < 2)%nat -> (q < rs ^ (nd - 1))%nat ->
  e_size (m_elem m i) ^ (nd - 1) * magnitude nd (rs ^ (nd - 1)) (c_normal c) q = edge_length (v i) (2 * d + s).
Proof.
  intros C FI DD SS Q. pose proof FI as (I & _). unfold magnitude.
  rewrite (rsum_ext _ _ (fun j => cof nd (v i) (e_size (m_elem m i)) d j (there nd rs node d s q) ^ 2)).
  2: { intros j J. f_equal. rewrite (normal_own c i (2 * d + s) j q C FI J Q). refine (own_is m pos size positive ghosts conf hang bcs st0 node w ratio v F B D _ BV i d s j q I _ SS J Q); fold nd; lia. }
  rewrite cof_length; [|exact N2|apply Rgt_not_eq, SP, I|exact DD].
  rewrite (tang_edge (v i) d s) by (try assumption; unfold there; now rewrite Nat.eqb_refl). replace (nd - 1)%nat with 1%nat by lia. rewrite pow_1. unfold edge_length.
  destruct (nth (2 * d + s) _ _) as [a b]. pose proof (SP i I) as SI. rewrite sqrt_div_alt by nra. rewrite sqrt_pow2 by lra. field. lra.
Qed.
Lemma weights_one n : rsum (rs ^ n) (fun q => outer_power rs w n q) = 1.
Proof.
  assert (R2 : (0 < rs)%nat). { pose proof (fit_rows _ _ _ _ (fits_mid m pos size positive ghosts hang bcs st0 F)) as H. cbn in H. unfold rs. lia. }
  assert (C : cube_integral n (fun _ => 1) = 1). { clear. induction n as [|n IH]; [reflexivity|]. cbn [cube_integral]. rewrite (RInt_ext _ (fun _ => 1)) by (intros; exact IH). rewrite RInt_const. unfold scal. cbn. unfold mult. cbn. ring. }
  rewrite <- C, <- (rule_cube rs node w (2 * rs) R2 (proj2 LG) n (fun _ => 1)).
  - apply rsum_ext. intros. ring.
  - split; [reflexivity|]. intros y l L. apply poly_is. apply (poly_weaken_le 1); [lia|apply poly_const].
Qed.
Lemma length_main fuel l sn : (2 <= fuel)%nat -> (forall c, In c l -> In (bd_con c) (def_cons m') /\ is_face m (bd_elem c) (i_face (c_dir (bd_con c)) false) (c_face (bd_con c) false)) ->
  integral_surface fuel m' l 1 (fun _ _ => [1]) sn = Ok [lsum (fun c => edge_length (v (bd_elem c)) (i_face (c_dir (bd_con c)) false)) (filter (fun c => (bd_sn c =? sn)%nat) l)].
Proof.
  intros FU HL. assert (EM : m_dim m' = nd /\ m_row_size m' = rs /\ m_basis m' = m_basis m /\ m_elem m' = set_elem m pos) by (unfold m', calc_jacobian; destruct (share_all _ _ _ _); auto). destruct EM as (E1 & E2 & E3 & E4).
  assert (R2 : (0 < rs)%nat). { pose proof (fit_rows _ _ _ _ (fits_mid m pos size positive ghosts hang bcs st0 F)) as H. cbn in H. unfold rs. lia. }
  destruct (surface_total fuel m' l 1 (fun _ _ => [1]) sn) as (r & E & L & T); rewrite ?E1, ?E2; try lia; [reflexivity|].
  rewrite E. f_equal. destruct r as [|x [|y r]]; try discriminate. f_equal. pose proof (T 0%nat ltac:(lia)) as T0. cbn [nth] in T0. rewrite T0. rewrite E1, E2, E3, E4. apply lsum_ext. intros c C. apply filter_In in C. destruct C as (C & _). destruct (HL c C) as (CD & FI).
  rewrite set_size. transitivity (rsum (rs ^ (nd - 1)) (fun q => outer_power rs w (nd - 1) q * edge_length (v (bd_elem c)) (i_face (c_dir (bd_con c)) false))); [|rewrite rsum_scal_r, weights_one; ring].
  rewrite <- rsum_scal. apply rsum_ext. intros q Q. rewrite B. cbn [b_weight basis_on].
  set (f := i_face (c_dir (bd_con c)) false) in *. assert (FE : f = (2 * (f / 2) + f mod 2)%nat) by (apply Nat.div_mod; lia). rewrite FE in FI |- *. 
  assert (f < 4)%nat by (destruct FI as (_ & K & _); fold nd in K; lia).
  rewrite <- (edge_magnitude (bd_con c) (bd_elem c) (f / 2) (f mod 2) q CD FI); [cbn [nth]; ring|apply Nat.div_lt_upper_bound; lia|apply Nat.mod_upper_bound; lia|exact Q].
Qed.
End Length.
