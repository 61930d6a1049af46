(** [Local] and [Reconcile_ldg_flux] on one element of a uniform viscous flow. *)
From Coq Require Import Reals List Arith Lia Lra FunctionalExtensionality Permutation.
From Verif Require Import Outcome RSum Tensor_Spec Tensor_Proofs Row_Model Row_Spec Row_Proofs Connection_Model Basis_Spec Basis_Proofs Quad_Model Quad_Spec Quad_Proofs Spatial_Model Spatial_Spec Spatial_Proofs Spatial_Proofs2 Spatial_Proofs3 Spatial_Proofs4 Spatial_Proofs5 Free_Spec Free_Proofs1 Visc_Spec Visc_Proofs1.
Import ListNotations.
Local Open Scope R_scope.

Section Element.
Variables (nd rs : nat) (eq : pde) (b : basis) (e : elem) (n : nat) (u ue : nat -> R) (f : nat -> nat -> R) (fn : nat -> arr).
Let nq := (rs ^ nd)%nat.
Let nfq := (rs ^ (nd - 1))%nat.
Hypotheses (R : (0 < rs)%nat) (N : (0 < nd)%nat) (U : unital rs b) (C : carried nd eq n u ue f) (A : additive eq) (HC : has_convection eq = true) (HD : has_diffusion eq = true) (HS : has_source eq = false)
  (NE : (n_extrap eq <= 2 * n_update eq)%nat) (ST : still nd eq).
Hypothesis DC : forall c i, (i < rs)%nat -> derivative rs (b_diff b) (b_boundary b) (b_weight b) (fun _ => c) (fun _ => c) i = 0.
Hypothesis CL : closed_element nd rs b e fn.
Hypothesis SE : e_deformed e = true -> forall k j q, (k < 2 * nd)%nat -> (j < nd)%nat -> (q < nfq)%nat -> face_normal nd rs e k (j * nfq + q)%nat = fn k (j * nfq + q)%nat.
Let NQ : (0 < nq)%nat. Proof. now apply pow_pos'. Qed.
Definition zeros (nv np : nat) (a : arr) : Prop := filled nv np (fun _ => 0) a.

Lemma same_points (a a' : arr) : (forall v q, (v < n_update eq)%nat -> (q < nq)%nat -> a' (v * nq + q)%nat = a (v * nq + q)%nat) -> (forall k, (n_update eq <= k / nq)%nat -> a' k = a k) -> a' = a.
Proof.
  intros H1 H2. apply functional_extensionality. intros k. destruct (Nat.lt_ge_cases (k / nq) (n_update eq)) as [V|V]; [|now apply H2].
  replace k with (k / nq * nq + k mod nq)%nat by (pose proof (Nat.div_mod k nq ltac:(lia)); lia). apply H1; [exact V|]. apply Nat.mod_upper_bound. lia.
Qed.
Lemma visc_flux_zero state vf d v q : filled n nq u state -> (forall k, (k < 2 * nd)%nat -> filled (n_extrap eq) nfq ue (vf k)) -> (d < nd)%nat -> (v < n_update eq)%nat -> (q < nq)%nat ->
  local_visc_flux nd rs eq e state (local_gradient nd rs eq b e state vf) d (v * nq + q)%nat = 0.
Proof.
  intros FI FV D V Q. unfold local_visc_flux. fold nq. cbv zeta. rewrite flat_div, flat_mod by exact Q. destruct (Nat.ltb_spec v (n_update eq)); [|lia]. apply ST; try assumption.
  intros w j W J. unfold nq. rewrite (gradient_zero nd rs eq b e n u ue f fn R N C DC CL SE state vf FI FV j w q J W Q). unfold Rdiv. ring.
Qed.
Lemma conv_zero state faces v q : filled n nq u state ->
  (forall k v q, (k < 2 * nd)%nat -> (v < n_update eq)%nat -> (q < nfq)%nat -> faces k (v * nfq + q)%nat = rsum nd (fun j => fn k (j * nfq + q)%nat * f j v)) ->
  (v < n_update eq)%nat -> (q < nq)%nat ->
  loop nd (fun id => for_rows nd rs id (fun ind a => put_row (n_update eq) rs (fun i v => - d_both rs b (get_row (local_flux nd rs eq e state id) ind) (get_bound faces ind) i v) a ind 1)) (fun _ => 0) (v * nq + q)%nat = 0.
Proof.
  intros FI FA V Q. unfold nq. rewrite (rows_total nd rs (n_update eq) (fun id ind i v => - d_both rs b (get_row (local_flux nd rs eq e state id) ind) (get_bound faces ind) i v)) by assumption. rewrite Rplus_0_l, rsum_opp.
  rewrite (rsum_ext nd _ (fun d => rsum nd (fun j => derivative rs (b_diff b) (b_boundary b) (b_weight b) (fun i => local_normal nd rs e (along nd rs d q i) j d) (fun s => fn (2 * d + s)%nat (j * nfq + foot nd rs d q)%nat) (digit rs nd d q) * f j v))).
  - rewrite rsum_swap. rewrite (rsum_ext nd _ (fun _ => 0)); [rewrite rsum_0; ring|]. intros j J. rewrite rsum_scal_r. unfold nfq. rewrite (CL j q J Q). ring.
  - intros d D. rewrite <- derivative_sum. unfold d_both. apply derivative_ext.
    + intros i I. unfold get_row. rewrite ri_nq. destruct (along_row nd rs d q i) as [<-|]; [|lia]. unfold local_flux. cbv zeta. rewrite flat_mod, flat_div by now apply along_lt.
      apply (ca_flux _ _ _ _ _ _ C); try assumption. apply (at_filled n nq u); [exact FI|now apply along_lt].
    + intros s S. unfold get_bound. rewrite ri_nfq by assumption. cbn [ri_i_dim i_face_qpoint i_fq nth_row]. fold nfq. replace (d * 2 + s)%nat with (2 * d + s)%nat by lia. apply FA; [lia|exact V|now apply foot_lt].
Qed.
Lemma rate_vars_update : rate_vars eq = n_update eq.
Proof. unfold rate_vars. pose proof (Nat.div_mod (n_extrap eq) 2). pose proof (Nat.mod_upper_bound (n_extrap eq) 2). lia. Qed.
Lemma rates_zero uf state faces vf : filled n nq u state -> (forall k, (k < 2 * nd)%nat -> filled (n_extrap eq) nfq ue (vf k)) ->
  (forall k v q, (k < 2 * nd)%nat -> (v < n_update eq)%nat -> (q < nfq)%nat -> faces k (v * nfq + q)%nat = rsum nd (fun j => fn k (j * nfq + q)%nat * f j v)) ->
  let o := local_rate nd rs eq b false uf e state faces vf in
  (forall v q, (v < n_update eq)%nat -> (q < nq)%nat -> fst o (v * nq + q)%nat = 0 /\ fst o ((rate_vars eq + v) * nq + q)%nat = 0) /\ (forall k, (k < 2 * nd)%nat -> zeros (n_update eq) nfq (snd o k)).
Proof.
  intros FI FV FA. cbv zeta. unfold local_rate. rewrite HD. unfold local_source. rewrite HS. cbn [andb]. rewrite local_residual_eq by assumption. rewrite HD.
  set (vflux := local_visc_flux nd rs eq e state (local_gradient nd rs eq b e state vf)).
  assert (VZ : forall d p i v, (d < nd)%nat -> (p < nfq)%nat -> (i < rs)%nat -> (v < n_update eq)%nat -> get_row (vflux d) (nth_row nd rs d p) i v = 0).
  { intros d p i v D P I V. unfold get_row. rewrite ri_nq. apply visc_flux_zero; try assumption. now apply qpoint_lt. }
  match goal with |- context [loop nd ?bd ?r0] => set (rate0 := r0); set (body := bd) end.
  assert (Z0 : forall v q, (v < 2 * n_update eq)%nat -> (q < nq)%nat -> rate0 (v * nq + q)%nat = 0).
  { intros v q V Q. unfold rate0. fold nq. destruct (Nat.ltb_spec (v * nq + q) (2 * n_update eq * nq)); [reflexivity|nia]. }
  clearbody rate0. pose proof rate_vars_update as RV.
  set (P := fun (r a : arr) => forall v q, (v < n_update eq)%nat -> (q < nq)%nat -> r (v * nq + q)%nat = a (v * nq + q)%nat /\ r ((rate_vars eq + v) * nq + q)%nat = 0).
  assert (L : P (loop nd body rate0) (loop nd (fun id => for_rows nd rs id (fun ind a => put_row (n_update eq) rs (fun i v => - d_both rs b (get_row (local_flux nd rs eq e state id) ind) (get_bound faces ind) i v) a ind 1)) (fun _ => 0))).
  { apply (loop_rel P).
    - intros v q V Q. split; [apply Z0; [lia|exact Q]|apply Z0; [lia|exact Q]].
    - intros d r a D PA. unfold body. rewrite !for_rows_eq by assumption. fold nfq. apply (loop_rel P); [exact PA|]. intros p r' a' PP PR v q V Q. destruct (PR v q V Q) as [P1 P2].
      unfold diff_rate. rewrite HD. unfold at_offset. fold nq. split.
      + destruct (Nat.ltb_spec (v * nq + q) (rate_vars eq * nq)); [|nia]. unfold conv_rate. rewrite HC. unfold nq. rewrite !put_row_at by assumption. fold nq. now rewrite P1.
      + destruct (Nat.ltb_spec ((rate_vars eq + v) * nq + q) (rate_vars eq * nq)); [nia|]. replace ((rate_vars eq + v) * nq + q - rate_vars eq * nq)%nat with (v * nq + q)%nat by nia.
        unfold nq. rewrite put_row_at by assumption. fold nq. replace (rate_vars eq * nq + (v * nq + q))%nat with ((rate_vars eq + v) * nq + q)%nat by ring.
        assert (CR : conv_rate nd rs eq b (local_flux nd rs eq e state) faces d (nth_row nd rs d p) r' ((rate_vars eq + v) * nq + q)%nat = 0).
        { unfold conv_rate. rewrite HC. unfold nq. rewrite put_row_over by (try assumption; lia). exact P2. }
        rewrite CR. destruct (Nat.eqb_spec p (foot nd rs d q)); [|reflexivity]. unfold d_interior, derivative_interior. rewrite (mat_vec_ext rs _ _ (fun _ => 0)) by (intros i I; now apply VZ). unfold mat_vec.
        rewrite (rsum_ext rs _ (fun _ => 0)) by (intros; ring). rewrite rsum_0. ring. }
  assert (L' : forall v q, (v < n_update eq)%nat -> (q < nq)%nat -> loop nd body rate0 (v * nq + q)%nat = 0 /\ loop nd body rate0 ((rate_vars eq + v) * nq + q)%nat = 0).
  { intros v q V Q. destruct (L v q V Q) as [L1 L2]. split; [rewrite L1; now apply conv_zero|exact L2]. }
  set (rate := loop nd body rate0) in *. clearbody rate. cbn [fst snd]. split.
  - intros v q V Q. destruct uf; [|now apply L']. split; apply filter_zero; try assumption; intros q' Q'; now apply L'.
  - intros k K v q V Q. replace k with (2 * (k / 2) + k mod 2)%nat by (pose proof (Nat.div_mod k 2); lia).
    assert (k / 2 < nd)%nat by (apply Nat.div_lt_upper_bound; lia). pose proof (Nat.mod_upper_bound k 2 ltac:(lia)). unfold nfq. rewrite put_bounds_in by assumption. unfold ends, mat_mul.
    rewrite (mat_vec_ext rs _ _ (fun _ => 0)) by (intros i I; now apply VZ). unfold mat_vec. rewrite (rsum_ext rs _ (fun _ => 0)) by (intros; ring). apply rsum_0.
Qed.
Lemma local_still dt (cr uf : bool) state ref faces vf : filled n nq u state -> (forall k, (k < 2 * nd)%nat -> filled (n_extrap eq) nfq ue (vf k)) ->
  (forall k v q, (k < 2 * nd)%nat -> (v < n_update eq)%nat -> (q < nfq)%nat -> faces k (v * nfq + q)%nat = rsum nd (fun j => fn k (j * nfq + q)%nat * f j v)) ->
  let o := local nd rs eq b dt false cr uf e state ref faces vf in
  fst (fst o) = state /\ zeros (n_update eq) nq (snd (fst o)) /\ (forall k, (k < 2 * nd)%nat -> zeros (n_update eq) nfq (snd (snd o) k)).
Proof.
  intros FI FV FA o. unfold o. rewrite local_eq. pose proof (rates_zero uf state faces vf FI FV FA) as Z. cbv zeta in Z.
  destruct (local_rate _ _ _ _ _ _ _ _ _ _) as [rate vf']. cbn [fst snd] in Z. destruct Z as [Z1 Z2].
  pose proof (local_write_values nd rs eq e dt false cr rate state ref R A) as W. cbv zeta in W. destruct (local_write _ _ _ _ _ _ _ _ _) as [state' ref']. cbn [fst snd] in W |- *. destruct W as [W1 W2]. fold nq in W1, W2.
  assert (RZ : forall v q, (v < n_update eq)%nat -> (q < nq)%nat -> the_rate nq eq false rate ref v q = 0).
  { intros v q V Q. unfold the_rate. rewrite HD. cbn [orb]. destruct (Z1 v q V Q) as [-> ->]. ring. }
  split; [|split; [|exact Z2]].
  - apply same_points; [|intros k K; now apply W2]. intros v q V Q. rewrite (proj1 (W1 q v Q V)). destruct cr; [ring|]. rewrite RZ by assumption. ring.
  - intros v q V Q. rewrite (proj2 (W1 q v Q V)). unfold the_ref. rewrite RZ, HC by assumption. destruct cr; [ring|]. now apply Z1.
Qed.
Lemma reconcile_still dt (cr uf : bool) state ref faces vf : filled n nq u state -> (forall k, (k < 2 * nd)%nat -> zeros (n_update eq) nfq (vf k)) ->
  let o := reconcile nd rs eq b dt cr uf e state ref faces vf in
  fst (fst o) = state /\ snd (fst o) = ref /\ (forall k, (k < 2 * nd)%nat -> filled (n_extrap eq) nfq ue (snd o k)).
Proof.
  intros FI FV o. unfold o, reconcile. match goal with |- context [if uf then _ else ?r] => set (rate0 := r) end.
  set (rate := if uf then apply_filter nd rs (n_update eq) b rate0 else rate0).
  assert (Z0 : forall v q, (v < n_update eq)%nat -> (q < nq)%nat -> rate0 (v * nq + q)%nat = 0).
  { intros v q V Q. unfold rate0, nq. rewrite (rows_total nd rs (n_update eq) (fun _ ind i v => - d_boundary b (get_bound vf ind) i v)) by assumption. rewrite Rplus_0_l. rewrite (rsum_ext nd _ (fun _ => 0)); [apply rsum_0|]. intros d D.
    unfold d_boundary, boundary_term. erewrite mat_vec_ext with (g := fun _ => 0); [unfold mat_vec; rewrite (rsum_ext 2 _ (fun _ => 0)) by (intros; ring); rewrite rsum_0; ring|].
    intros s S. unfold get_bound. rewrite ri_nfq by assumption. cbn [ri_i_dim i_face_qpoint i_fq nth_row]. fold nfq. apply (FV (d * 2 + s)%nat); [lia|exact V|now apply foot_lt]. }
  assert (Z1 : forall v q, (v < n_update eq)%nat -> (q < nq)%nat -> rate (v * nq + q)%nat = 0).
  { intros v q V Q. unfold rate. destruct uf; [|now apply Z0]. apply filter_zero; try assumption. intros q' Q'. now apply Z0. }
  clearbody rate. cbn [fst snd]. fold nq.
  pose proof (write_points nd rs eq (fun q v => rate (v * nq + q)%nat * the_mult dt e q) (if cr then ref else state) true R A) as [W1 W2]. unfold the_mult in W1, W2. cbv beta zeta in W1, W2 |- *. fold nq in W1, W2.
  match type of W1 with context [loop ?nn ?bb ?s] => set (to_update := loop nn bb s) in * end.
  assert (E : to_update = if cr then ref else state).
  { apply same_points; [|exact W2]. intros v q V Q. rewrite (W1 q v Q V), Z1 by assumption. ring. }
  rewrite E. split; [now destruct cr|]. split; [now destruct cr|]. intros k K. apply write_face_filled with (n := n) (u := u) (f := f); try assumption. now destruct cr.
Qed.
End Element.
