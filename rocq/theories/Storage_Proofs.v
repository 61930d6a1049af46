From Coq Require Import List Arith Lia.
From Verif Require Import Storage_Model Storage_Spec.
Import ListNotations.

Lemma within_le size s l : s + l <= size -> within size (s, l).
Proof. intros H i. unfold covers. cbn. lia. Qed.

Lemma disjoint_le s l s' l' : s + l <= s' -> disjoint (s, l) (s', l').
Proof. intros H i. unfold covers. cbn. lia. Qed.

Lemma disjoint_le' s l s' l' : s' + l' <= s -> disjoint (s, l) (s', l').
Proof. intros H i. unfold covers. cbn. lia. Qed.

(** consecutive blocks are disjoint *)
Fixpoint increasing (from : nat) (l : list block) : Prop :=
  match l with
  | [] => True
  | b :: l' => from <= fst b /\ increasing (fst b + snd b) l'
  end.

Lemma increasing_weaken from from' l : from' <= from -> increasing from l -> increasing from' l.
Proof. destruct l as [|b l]; cbn; intros; [auto|]. intuition lia. Qed.

Lemma increasing_In from l b : increasing from l -> In b l -> from <= fst b.
Proof.
  revert from; induction l as [|a l IH]; intros from H Hb; [destruct Hb|]. cbn in H. destruct H as [H1 H2], Hb as [<-|Hb]; [auto|].
  specialize (IH _ H2 Hb). lia.
Qed.

Lemma increasing_disjoint from l : increasing from l -> pairwise_disjoint l.
Proof.
  revert from; induction l as [|a l IH]; intros from H; constructor.
  - apply Forall_forall. intros b Hb. cbn in H. destruct H as [_ H]. pose proof (increasing_In _ _ _ H Hb).
    destruct a, b. cbn in *. now apply disjoint_le.
  - cbn in H. apply (IH _ (proj2 H)).
Qed.

Lemma stages_increasing p k : forall i, 0 < i -> increasing (residual_cache p + (i - 1) * n_dof p) (map (fun i => (stage p i, n_dof p)) (seq i k)).
Proof.
  induction k as [|k IH]; intros i Hi; cbn [seq map increasing]; [exact I|]. unfold stage at 1 2. cbn [fst snd].
  destruct (Nat.ltb_spec 0 i); [|lia]. split; [lia|].
  specialize (IH (S i) ltac:(lia)). revert IH. apply increasing_weaken. destruct i as [|i]; [lia|]. cbn [Nat.sub]. rewrite !Nat.sub_0_r. lia.
Qed.

Lemma element_blocks p : pairwise_disjoint
  ([(stage p 0, n_dof p); (time_step_scale p, n_qpoint p); (bulk_av_coef p, n_qpoint p); (laplacian_av_coef p, n_qpoint p);
    (art_visc_forcing p, n_forcing p * n_qpoint p); (advection_state p, row_size p * n_qpoint p)]
   ++ map (fun i => (stage p i, n_dof p)) (seq 1 (n_stage p - 1))).
Proof.
  apply (increasing_disjoint 0). cbn [app increasing fst snd]. unfold stage at 1 2. cbn [Nat.ltb Nat.leb].
  unfold state, time_step_scale, bulk_av_coef, laplacian_av_coef, art_visc_forcing, advection_state, bulk_av_coef, laplacian_av_coef,
    art_visc_forcing, bulk_av_coef, laplacian_av_coef, time_step_scale, bulk_av_coef, time_step_scale.
  do 6 (split; [lia|]).
  pose proof (stages_increasing p (n_stage p - 1) 1 ltac:(lia)) as H. revert H. apply increasing_weaken.
  unfold residual_cache, n_dof. lia.
Qed.

Lemma element_within p : Forall (within (data_size p))
  ([(stage p 0, n_dof p); (time_step_scale p, n_qpoint p); (bulk_av_coef p, n_qpoint p); (laplacian_av_coef p, n_qpoint p);
    (art_visc_forcing p, n_forcing p * n_qpoint p); (advection_state p, row_size p * n_qpoint p)]
   ++ map (fun i => (stage p i, n_dof p)) (seq 1 (n_stage p - 1))).
Proof.
  unfold data_size, n_dof_numeric, n_var_numeric, n_advection.
  apply Forall_app. split.
  - unfold stage at 1. cbn [Nat.ltb Nat.leb].
    unfold advection_state, art_visc_forcing, laplacian_av_coef, bulk_av_coef, time_step_scale, state, n_dof.
    repeat (constructor; [apply within_le; nia|]). constructor.
  - apply Forall_forall. intros b Hb. apply in_map_iff in Hb as (i & <- & Hi). apply in_seq in Hi. apply within_le.
    unfold stage. destruct (Nat.ltb_spec 0 i); [|lia]. unfold residual_cache, n_dof.
    pose proof (Nat.le_max_l ((n_stage p - 1) * n_var p) (row_size p)) as Hm.
    assert ((i - 1) * n_var p + n_var p <= (n_stage p - 1) * n_var p) by nia.
    set (m := Nat.max _ _) in *. nia.
Qed.

Lemma residual_cache_block p k : k <= row_size p \/ k <= (n_stage p - 1) * n_var p ->
  within (data_size p) (residual_cache p, k * n_qpoint p)
  /\ Forall (disjoint (residual_cache p, k * n_qpoint p))
      [(stage p 0, n_dof p); (time_step_scale p, n_qpoint p); (bulk_av_coef p, n_qpoint p); (laplacian_av_coef p, n_qpoint p);
       (art_visc_forcing p, n_forcing p * n_qpoint p); (advection_state p, row_size p * n_qpoint p)].
Proof.
  intros Hk. split.
  - apply within_le. unfold data_size, n_dof_numeric, n_var_numeric, n_advection, residual_cache.
    pose proof (Nat.le_max_l ((n_stage p - 1) * n_var p) (row_size p)). pose proof (Nat.le_max_r ((n_stage p - 1) * n_var p) (row_size p)).
    set (m := Nat.max _ _) in *. assert (k <= m) by lia. nia.
  - unfold stage. cbn [Nat.ltb Nat.leb].
    unfold advection_state, art_visc_forcing, laplacian_av_coef, bulk_av_coef, time_step_scale, state, residual_cache, n_dof.
    repeat (constructor; [apply disjoint_le'; nia|]). constructor.
Qed.

Lemma n_qpoint_face p : 0 < row_size p -> 0 < n_dim p -> n_qpoint p = row_size p * n_face_qpoint p.
Proof.
  intros Hr Hd. unfold n_qpoint, n_face_qpoint. rewrite <- Nat.pow_succ_r'. f_equal. lia.
Qed.

Lemma state_sz_eq p : 0 < row_size p -> 0 < n_dim p -> state_sz p = n_var p * n_face_qpoint p.
Proof.
  intros Hr Hd. unfold state_sz, n_dof. rewrite n_qpoint_face by auto.
  replace (row_size p * n_face_qpoint p * n_var p) with (n_var p * n_face_qpoint p * row_size p) by lia.
  now apply Nat.div_mul; lia.
Qed.

Lemma face_offset_eq p b : face_offset p b = con_state p 0 b.
Proof.
  unfold face_offset, con_state, state_sz. destruct b; cbn [Nat.b2n].
  - rewrite !Nat.mul_1_l. reflexivity.
  - cbn. destruct (row_size p); [reflexivity|]. now rewrite Nat.div_0_l.
Qed.

Lemma coarse_size_eq p : 0 < row_size p -> 0 < n_dim p -> coarse_size p = 3 * n_var p * n_face_qpoint p.
Proof.
  intros Hr Hd. unfold coarse_size, n_dof. rewrite n_qpoint_face by auto.
  replace (3 * (row_size p * n_face_qpoint p * n_var p)) with (3 * n_var p * n_face_qpoint p * row_size p) by lia.
  now apply Nat.div_mul; lia.
Qed.

Lemma pde_state_vars p eq v : n_var p = n_dim p + 2 -> n_forcing p = 4 -> In eq (all_pdes (n_dim p) (row_size p)) ->
  In v (reads eq ++ writes eq) -> within (residual_cache p) (v * n_qpoint p, n_qpoint p).
Proof.
  intros Hv Hf Heq Hin. apply within_le. unfold residual_cache. rewrite Hv, Hf.
  assert (Hlt : v < n_dim p + 2 + 3 + 4 + row_size p).
  { cbn in Heq. repeat destruct Heq as [<-|Heq]; try destruct Heq; cbn [reads writes navier_stokes advection smooth_art_visc fix_therm_admis] in Hin;
      unfold bulk_av_offset, laplacian_av_offset, tss_offset, forcing_offset, advection_offset in Hin;
      repeat rewrite in_app_iff in Hin; repeat rewrite in_seq in Hin; cbn [In] in Hin; lia. }
  nia.
Qed.

Lemma pde_offsets p : n_var p = n_dim p + 2 -> n_forcing p = 4 ->
  tss_offset (n_dim p) * n_qpoint p = time_step_scale p
  /\ bulk_av_offset (n_dim p) * n_qpoint p = bulk_av_coef p
  /\ laplacian_av_offset (n_dim p) * n_qpoint p = laplacian_av_coef p
  /\ forcing_offset (n_dim p) * n_qpoint p = art_visc_forcing p
  /\ advection_offset (n_dim p) * n_qpoint p = advection_state p.
Proof.
  intros Hv Hf. unfold tss_offset, bulk_av_offset, laplacian_av_offset, forcing_offset, advection_offset,
    advection_state, art_visc_forcing, laplacian_av_coef, bulk_av_coef, time_step_scale, n_dof. rewrite Hv, Hf.
  repeat split; lia.
Qed.

(** face blocks used by the kernels of one PDE *)
Definition pde_face_blocks (p : storage_params) (eq : pde) (base : nat) : list block :=
  (base, n_extrap eq * n_face_qpoint p)
  :: (if has_diffusion eq then [(base + face_offset p true, n_extrap eq * n_face_qpoint p)] else []).

Lemma extrap_le p eq : In eq (all_pdes (n_dim p) (row_size p)) -> n_var p = n_dim p + 2 -> 0 < n_dim p ->
  (has_diffusion eq = true -> n_extrap eq <= n_var p) /\ (has_diffusion eq = false -> n_extrap eq <= Nat.max (n_var p) (n_dim p + row_size p)).
Proof.
  intros Heq Hv Hd. cbn in Heq. repeat destruct Heq as [<-|Heq]; try destruct Heq; cbn [has_diffusion n_extrap navier_stokes advection smooth_art_visc fix_therm_admis];
    split; intros; try discriminate; lia.
Qed.

Lemma face_blocks_ok p eq : In eq (all_pdes (n_dim p) (row_size p)) -> n_var p = n_dim p + 2 -> 0 < n_dim p -> 0 < row_size p ->
  forall deformed, Forall (within (con_data_size deformed p))
      (pde_face_blocks p eq (con_state p 0 false) ++ pde_face_blocks p eq (con_state p 1 false)
       ++ if deformed then [(con_normal p 0, n_dim p * n_face_qpoint p); (con_normal p 1, n_dim p * n_face_qpoint p)] else [])
  /\ pairwise_disjoint
      (pde_face_blocks p eq (con_state p 0 false) ++ pde_face_blocks p eq (con_state p 1 false)
       ++ if deformed then [(con_normal p 0, n_dim p * n_face_qpoint p); (con_normal p 1, n_dim p * n_face_qpoint p)] else []).
Proof.
  intros Heq Hv Hd Hr deformed. destruct (extrap_le p eq Heq Hv Hd) as [E1 E2].
  unfold pde_face_blocks. rewrite face_offset_eq. unfold con_state, con_normal, con_data_size, nrml_sz, face_sz, n_advection. cbn [Nat.b2n].
  rewrite state_sz_eq by auto. set (f := n_face_qpoint p) in *. set (x := n_extrap eq) in *.
  pose proof (Nat.le_max_l (2 * (n_var p * f)) ((n_dim p + row_size p) * f)) as M1.
  pose proof (Nat.le_max_r (2 * (n_var p * f)) ((n_dim p + row_size p) * f)) as M2.
  set (m := Nat.max (2 * (n_var p * f)) ((n_dim p + row_size p) * f)) in *.
  destruct (has_diffusion eq).
  - specialize (E1 eq_refl). assert (X : x * f <= n_var p * f) by nia. split.
    + destruct deformed; cbn [app]; repeat (constructor; [apply within_le; lia|]); constructor.
    + apply (increasing_disjoint 0). destruct deformed; cbn [app increasing fst snd]; repeat (split; [lia|]); exact I.
  - specialize (E2 eq_refl). assert (X : x * f <= m).
    { destruct (Nat.max_spec (n_var p) (n_dim p + row_size p)) as [[_ E]|[_ E]]; rewrite E in E2; nia. }
    split.
    + destruct deformed; cbn [app]; repeat (constructor; [apply within_le; lia|]); constructor.
    + apply (increasing_disjoint 0). destruct deformed; cbn [app increasing fst snd]; repeat (split; [lia|]); exact I.
Qed.

Lemma coarse_fits p : n_var p = n_dim p + 2 -> 0 < n_dim p -> 0 < row_size p ->
  ((forall eq, In eq (all_pdes (n_dim p) (row_size p)) -> Forall (within (coarse_size p)) (pde_face_blocks p eq 0))
   <-> row_size p <= 2 * n_dim p + 6).
Proof.
  intros Hv Hd Hr. assert (Hf : 0 < n_face_qpoint p). { unfold n_face_qpoint. apply Nat.neq_0_lt_0, Nat.pow_nonzero. lia. }
  split.
  - intros H. specialize (H (advection (n_dim p) (row_size p)) ltac:(cbn; auto)). cbn in H. apply Forall_inv in H.
    rewrite coarse_size_eq, Hv in H by auto. destruct (le_lt_dec (row_size p) (2 * n_dim p + 6)) as [|Hc]; auto. exfalso.
    specialize (H ((n_dim p + row_size p) * n_face_qpoint p - 1)). unfold covers in H. cbn [fst snd] in H.
    assert (Hx : 3 * (n_dim p + 2) + 1 <= n_dim p + row_size p) by lia.
    apply (Nat.mul_le_mono_r _ _ (n_face_qpoint p)) in Hx. cbn [n_extrap advection] in H.
    set (y := (n_dim p + row_size p) * n_face_qpoint p) in *. clearbody y.
    rewrite Nat.mul_add_distr_r in Hx. set (z := 3 * (n_dim p + 2) * n_face_qpoint p) in *. clearbody z. lia.
  - intros Hle eq Heq. destruct (extrap_le p eq Heq Hv Hd) as [E1 E2]. unfold pde_face_blocks.
    rewrite face_offset_eq. unfold con_state. cbn [Nat.b2n]. rewrite state_sz_eq, coarse_size_eq by auto.
    set (f := n_face_qpoint p) in *. destruct (has_diffusion eq).
    + specialize (E1 eq_refl). constructor; [apply within_le; nia|]. constructor; [apply within_le; nia|]. constructor.
    + specialize (E2 eq_refl). constructor; [|constructor]. apply within_le.
      destruct (Nat.max_spec (n_var p) (n_dim p + row_size p)) as [[_ E]|[_ E]]; rewrite E in E2; nia.
Qed.
