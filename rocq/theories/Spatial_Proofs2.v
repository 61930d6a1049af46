(** The element kernels [Local] and [Reconcile_ldg_flux]: how much they change the totals of an element. *)
From Coq Require Import Reals List Arith Lia Lra FunctionalExtensionality Permutation.
From Verif Require Import Outcome RSum Tensor_Spec Tensor_Proofs Row_Model Row_Spec Row_Proofs Connection_Model Quad_Model Quad_Spec Quad_Proofs Quad_Proofs2 Spatial_Model Spatial_Spec Spatial_Proofs.
Import ListNotations.
Local Open Scope R_scope.

Lemma flat_div n v q : (q < n)%nat -> ((v * n + q) / n = v)%nat.
Proof. intros H. rewrite Nat.div_add_l by lia. rewrite Nat.div_small by exact H. lia. Qed.
Lemma flat_mod n v q : (q < n)%nat -> ((v * n + q) mod n = q)%nat.
Proof. intros H. rewrite Nat.add_comm, Nat.mod_add by lia. now apply Nat.mod_small. Qed.
Lemma write_point_in n q f d v : (q < n)%nat -> write_point n q f d (v * n + q)%nat = f (at_point n d q) v.
Proof. intros H. unfold write_point. rewrite flat_mod, flat_div, Nat.eqb_refl by exact H. reflexivity. Qed.
Lemma write_point_out n q f d k : (k mod n <> q)%nat -> write_point n q f d k = d k.
Proof. intros H. unfold write_point. destruct (Nat.eqb_spec (k mod n) q); [contradiction|reflexivity]. Qed.

(** what [Local] adds *)
Definition the_mult (update : R) (e : elem) (q : nat) : R := let mult := update * e_tss e q / e_size e in if e_deformed e then mult / e_det e q else mult.
Definition the_rate (nq : nat) (eq : pde) (stage : bool) (rate ref : arr) (v q : nat) : R :=
  if stage then rate (v * nq + q)%nat - ref (v * nq + q)%nat else if (has_diffusion eq || has_source eq)%bool then rate (v * nq + q)%nat + rate ((rate_vars eq + v) * nq + q)%nat else rate (v * nq + q)%nat.
Definition the_ref (nq : nat) (eq : pde) (stage compute_residual : bool) (mult : R) (rate ref : arr) (v q : nat) : R :=
  if compute_residual then the_rate nq eq stage rate ref v q * mult else if stage then ref (v * nq + q)%nat else if has_convection eq then rate (v * nq + q)%nat else ref (v * nq + q)%nat.
Lemma write_vars (nq : nat) (eq : pde) (stage cr : bool) (mult : R) (rate ref : arr) (q : nat) : (q < nq)%nat ->
  let '(upd, ref') := loop (n_update eq) (fun v '(upd, ref_state) =>
      let k := (v * nq + q)%nat in
      let u := rate k in
      let '(u, ref_state) :=
        if stage then (u - ref_state k, ref_state)
        else (if (has_diffusion eq || has_source eq)%bool then u + rate ((rate_vars eq + v) * nq + q)%nat else u,
              if has_convection eq then put ref_state k u else ref_state) in
      let u := u * mult in
      if cr then (upd, put ref_state k u) else (put upd v u, ref_state)) ((fun _ => 0) : arr, ref) in
  (forall v, (v < n_update eq)%nat -> upd v = (if cr then 0 else the_rate nq eq stage rate ref v q * mult) /\ ref' (v * nq + q)%nat = the_ref nq eq stage cr mult rate ref v q) /\
  (forall k, (n_update eq <= k / nq \/ k mod nq <> q)%nat -> ref' k = ref k).
Proof.
  intros Q. match goal with |- context [loop (n_update eq) ?b _] => set (body := b) end.
  set (P := fun m (s : arr * arr) => (forall v, fst s v = if (v <? m)%nat then if cr then 0 else the_rate nq eq stage rate ref v q * mult else 0) /\ (forall v, (v < m)%nat -> snd s (v * nq + q)%nat = the_ref nq eq stage cr mult rate ref v q) /\
    (forall k, (m <= k / nq \/ k mod nq <> q)%nat -> snd s k = ref k)).
  assert (L : P (n_update eq) (loop (n_update eq) body ((fun _ => 0) : arr, ref))); [apply loop_inv|].
  - split; [|split]; intros; [reflexivity|lia|reflexivity].
  - intros v [u r] V (A & B & C). unfold body, P. cbn [fst snd] in A, B, C.
    assert (K : r (v * nq + q)%nat = ref (v * nq + q)%nat) by (apply C; left; rewrite flat_div by exact Q; lia).
    assert (Z : forall (x : arr) (y : R), (forall k, (v <= k / nq \/ k mod nq <> q)%nat -> x k = ref k) -> forall k, (S v <= k / nq \/ k mod nq <> q)%nat -> put x (v * nq + q)%nat y k = ref k).
    { intros x y H k D. rewrite put_out; [apply H; lia|]. intros ->. rewrite flat_div, flat_mod in D by exact Q. lia. }
    assert (Z' : forall (x : arr) (y : R), (forall v', (v' < v)%nat -> x (v' * nq + q)%nat = the_ref nq eq stage cr mult rate ref v' q) -> y = the_ref nq eq stage cr mult rate ref v q -> forall v', (v' < S v)%nat -> put x (v * nq + q)%nat y (v' * nq + q)%nat = the_ref nq eq stage cr mult rate ref v' q).
    { intros x y H E v' V'. destruct (Nat.eq_dec v' v) as [->|N]; [rewrite put_in; exact E|]. rewrite put_out by (intros F; apply flat_inj in F; lia). apply H. lia. }
    assert (Y : forall (x : arr), (forall v', (v' < v)%nat -> x (v' * nq + q)%nat = the_ref nq eq stage cr mult rate ref v' q) -> x (v * nq + q)%nat = the_ref nq eq stage cr mult rate ref v q -> forall v', (v' < S v)%nat -> x (v' * nq + q)%nat = the_ref nq eq stage cr mult rate ref v' q).
    { intros x H E v' V'. destruct (Nat.eq_dec v' v) as [->|N]; [exact E|apply H; lia]. }
    assert (X : forall y : R, y = (if cr then 0 else the_rate nq eq stage rate ref v q * mult) -> forall v', put u v y v' = (if (v' <? S v)%nat then if cr then 0 else the_rate nq eq stage rate ref v' q * mult else 0)).
    { intros y E v'. destruct (Nat.eq_dec v' v) as [->|N]; [rewrite put_in; destruct (Nat.ltb_spec v (S v)); [exact E|lia]|]. rewrite put_out by exact N. rewrite A. destruct (Nat.ltb_spec v' v), (Nat.ltb_spec v' (S v)); (reflexivity || lia). }
    assert (X0 : cr = true -> forall v', u v' = (if (v' <? S v)%nat then if cr then 0 else the_rate nq eq stage rate ref v' q * mult else 0)).
    { intros -> v'. rewrite A. destruct (Nat.ltb_spec v' v), (Nat.ltb_spec v' (S v)); reflexivity. }
    unfold P in *. destruct stage eqn:ST; [|destruct (has_convection eq) eqn:HC]; destruct cr eqn:CR; cbn [fst snd].
    + split; [now apply X0|split; [apply Z'; [exact B|unfold the_ref, the_rate; now rewrite K]|now apply Z]].
    + split; [apply X; unfold the_rate; now rewrite K|split; [apply Y; [exact B|unfold the_ref; exact K]|intros k D; apply C; lia]].
    + split; [now apply X0|split].
      * intros v' V'. destruct (Nat.eq_dec v' v) as [->|N]; [rewrite put_in; unfold the_ref, the_rate; destruct (has_diffusion eq || has_source eq)%bool; reflexivity|].
        rewrite !put_out by (intros F; apply flat_inj in F; lia). apply B. lia.
      * intros k D. assert (k <> v * nq + q)%nat by (intros ->; rewrite flat_div, flat_mod in D by exact Q; lia). rewrite !put_out by assumption. apply C. lia.
    + split; [apply X; unfold the_rate; destruct (has_diffusion eq || has_source eq)%bool; reflexivity|split; [apply Z'; [exact B|unfold the_ref; now rewrite HC]|now apply Z]].
    + split; [now apply X0|split; [apply Z'; [exact B|unfold the_ref, the_rate; destruct (has_diffusion eq || has_source eq)%bool; reflexivity]|now apply Z]].
    + split; [apply X; unfold the_rate; destruct (has_diffusion eq || has_source eq)%bool; reflexivity|split; [apply Y; [exact B|unfold the_ref; now rewrite HC]|intros k D; apply C; lia]].
  - destruct (loop (n_update eq) body _) as [upd ref']. destruct L as (A & B & C). cbn [fst snd] in A, B, C. split; [|exact C]. intros v V. split; [|now apply B]. rewrite A. destruct (Nat.ltb_spec v (n_update eq)); [reflexivity|lia].
Qed.
Lemma the_rate_ext nq eq stage rate r r' v q : r (v * nq + q)%nat = r' (v * nq + q)%nat -> the_rate nq eq stage rate r v q = the_rate nq eq stage rate r' v q.
Proof. intros H. unfold the_rate. now rewrite H. Qed.
Lemma the_ref_ext nq eq stage cr mult rate r r' v q : r (v * nq + q)%nat = r' (v * nq + q)%nat -> the_ref nq eq stage cr mult rate r v q = the_ref nq eq stage cr mult rate r' v q.
Proof. intros H. unfold the_ref. rewrite H, (the_rate_ext nq eq stage rate r r') by exact H. reflexivity. Qed.
Lemma local_write_values nd rs eq e update stage cr rate state ref : (0 < rs)%nat -> additive eq ->
  let nq := (rs ^ nd)%nat in let s := local_write nd rs eq e update stage cr rate (state, ref) in
  (forall q v, (q < nq)%nat -> (v < n_update eq)%nat -> fst s (v * nq + q)%nat = state (v * nq + q)%nat + (if cr then 0 else the_rate nq eq stage rate ref v q * the_mult update e q) /\
    snd s (v * nq + q)%nat = the_ref nq eq stage cr (the_mult update e q) rate ref v q) /\
  (forall k, (n_update eq <= k / nq)%nat -> fst s k = state k /\ snd s k = ref k).
Proof.
  intros R A nq s. assert (NQ : (0 < nq)%nat) by now apply pow_pos'.
  set (P := fun m (s : arr * arr) =>
    (forall q v, (q < m)%nat -> (v < n_update eq)%nat -> fst s (v * nq + q)%nat = state (v * nq + q)%nat + (if cr then 0 else the_rate nq eq stage rate ref v q * the_mult update e q) /\
      snd s (v * nq + q)%nat = the_ref nq eq stage cr (the_mult update e q) rate ref v q) /\
    (forall k, (m <= k mod nq \/ n_update eq <= k / nq)%nat -> fst s k = state k /\ snd s k = ref k)).
  assert (L : P nq s); [unfold s, local_write; apply (loop_inv P)|].
  - split; [intros; lia|intros; split; reflexivity].
  - intros q [st r] Q (B & C). cbn [fst snd] in B, C. fold nq. fold (the_mult update e q).
    pose proof (write_vars nq eq stage cr (the_mult update e q) rate r q Q) as W. cbv zeta in W |- *. unfold the_mult in W |- *. cbv zeta in W |- *.
    match type of W with context [loop ?n ?b ?s] => destruct (loop n b s) as [upd ref'] eqn:EL end.
    match goal with |- context [loop ?n ?b ?s] => replace (loop n b s) with (upd, ref') by (symmetry; exact EL) end. clear EL. destruct W as [W1 W2]. unfold P. cbn [fst snd].
    fold (the_mult update e q) in W1. split.
    + intros q' v Q' V. destruct (Nat.eq_dec q' q) as [->|N].
      * destruct (W1 v V) as [U1 U2]. destruct (C (v * nq + q)%nat) as [C1 C2]; [rewrite flat_mod by exact Q; lia|]. rewrite write_point_in, A by exact Q. unfold add_update, at_point. destruct (Nat.ltb_spec v (n_update eq)); [|lia]. rewrite C1, U1, U2.
        rewrite (the_rate_ext nq eq stage rate r ref), (the_ref_ext nq eq stage cr _ rate r ref) by exact C2. split; reflexivity.
      * rewrite write_point_out by (rewrite flat_mod; lia). rewrite W2 by (rewrite flat_mod; lia). apply B; lia.
    + intros k D. rewrite W2 by lia. destruct (C k) as [C1 C2]; [lia|]. split; [|exact C2]. rewrite <- C1. unfold write_point. destruct (Nat.eqb_spec (k mod nq) q) as [E|]; [|reflexivity].
      rewrite A. unfold add_update, at_point. destruct (Nat.ltb_spec (k / nq) (n_update eq)); [lia|]. f_equal. pose proof (Nat.div_mod k nq). lia.
  - destruct L as [L1 L2]. split; [intros; apply L1; assumption|intros; apply L2; now right].
Qed.

(** ** the change of an element by [Local] *)
Definition good (rs : nat) (b : basis) : Prop := by_parts rs (b_diff b) (b_boundary b) (b_weight b) /\ (forall r, rsum rs (fun i => b_weight b i * mat_vec rs (b_filter b) r i) = rsum rs (fun i => b_weight b i * r i)).
Definition ready (nd rs : nat) (e : elem) : Prop := e_size e <> 0 /\ forall q, (q < rs ^ nd)%nat -> e_tss e q <> 0 /\ (e_deformed e = true -> e_det e q <> 0).
Lemma amount_mult nd rs wt e a v update (u : nat -> R) : (0 < nd)%nat -> ready nd rs e -> (forall q, (q < rs ^ nd)%nat -> a (v * rs ^ nd + q)%nat = u q * the_mult update e q) ->
  amount nd rs wt e a v = update * (e_size e ^ (nd - 1) * rsum (rs ^ nd) (fun q => outer_power rs wt nd q * u q)).
Proof.
  intros N (S & T) H. unfold amount, quad. rewrite (rsum_ext (rs ^ nd) _ (fun q => update / e_size e * (outer_power rs wt nd q * u q))).
  - rewrite rsum_scal. destruct nd as [|n]; [lia|]. rewrite Nat.sub_succ, Nat.sub_0_r. cbn [pow]. field. exact S.
  - intros q Q. rewrite H, flat_mod by exact Q. destruct (T q Q) as [T1 T2]. unfold the_mult. destruct (e_deformed e); field; auto.
Qed.
(** [time_rate] as [Local] uses it when it writes the update *)
Definition local_rate (nd rs : nat) (eq : pde) (b : basis) (stage use_filter : bool) (e : elem) (state : arr) (faces visc_faces : nat -> arr) : arr * (nat -> arr) :=
  let grad := if has_diffusion eq then local_gradient nd rs eq b e state visc_faces else fun _ _ => 0 in
  let rate := if has_diffusion eq then
      (fun k => if (k <? 2 * n_update eq * rs ^ nd)%nat then 0 else
        loop (rs ^ nd) (fun q => loop (n_extrap eq) (fun v t => put t (v * rs ^ nd + q)%nat (fetch_extrap eq (at_point (rs ^ nd) state q) v))) (fun _ => 0) k)
    else fun _ => 0 in
  let rate := local_source nd rs eq e state stage rate in
  let '(rate, visc_faces) := local_residual nd rs eq b (local_flux nd rs eq e state) (local_visc_flux nd rs eq e state grad) faces (rate, visc_faces) in
  (if use_filter then apply_filter nd rs (2 * n_update eq) b rate else rate, visc_faces).
Lemma local_eq nd rs eq b dt stage cr use_filter e state ref faces visc_faces :
  local nd rs eq b dt stage cr use_filter e state ref faces visc_faces =
  let '(rate, visc_faces') := local_rate nd rs eq b stage use_filter e state faces visc_faces in
  let '(state', ref') := local_write nd rs eq e (if stage then dt * b_step_ratio b else dt) stage cr rate (state, ref) in
  ((state', ref'), (if has_diffusion eq then faces else write_face nd rs eq b state' faces, visc_faces')).
Proof. unfold local, local_rate. destruct (local_residual _ _ _ _ _ _ _ _) as [r vf]. reflexivity. Qed.
Lemma local_rate_totals nd rs eq b stage use_filter e state faces visc_faces v : (0 < rs)%nat -> (0 < nd)%nat -> good rs b -> has_source eq = false -> (has_diffusion eq = true -> n_extrap eq <= 2 * n_update eq)%nat -> (v < n_update eq)%nat ->
  let '(rate, visc_faces') := local_rate nd rs eq b stage use_filter e state faces visc_faces in
  quad nd rs (b_weight b) rate v = - (if has_convection eq then flux_out nd rs (b_weight b) faces v else 0) /\
  quad nd rs (b_weight b) rate (rate_vars eq + v) = - (if has_diffusion eq then flux_out nd rs (b_weight b) visc_faces' v else 0) /\
  (has_diffusion eq = false -> visc_faces' = visc_faces) /\
  (forall i k, (2 * nd <= i \/ n_update eq * rs ^ (nd - 1) <= k)%nat -> visc_faces' i k = visc_faces i k).
Proof.
  intros R N [BP FL] NS NE V. unfold local_rate. set (grad := if has_diffusion eq then _ else _).
  match goal with |- context [local_source nd rs eq e state stage ?r] => set (rate0 := local_source nd rs eq e state stage r) end.
  assert (NQ : (0 < rs ^ nd)%nat) by now apply pow_pos'.
  assert (Z : forall v q, (v < rate_vars eq + n_update eq)%nat -> (q < rs ^ nd)%nat -> rate0 (v * rs ^ nd + q)%nat = 0).
  { intros v' q V' Q. unfold rate0, local_source. rewrite NS. cbn [andb]. destruct (has_diffusion eq) eqn:D; [|reflexivity]. specialize (NE eq_refl).
    assert (rate_vars eq = n_update eq). { unfold rate_vars. pose proof (Nat.div_mod (n_extrap eq) 2). pose proof (Nat.mod_upper_bound (n_extrap eq) 2). lia. }
    destruct (Nat.ltb_spec (v' * rs ^ nd + q) (2 * n_update eq * rs ^ nd)); [reflexivity|nia]. }
  assert (QZ : forall v, (v < rate_vars eq + n_update eq)%nat -> quad nd rs (b_weight b) rate0 v = 0).
  { intros v' V'. unfold quad. rewrite <- (rsum_0 (rs ^ nd)). apply rsum_ext. intros q Q. rewrite Z by assumption. ring. }
  pose proof (residual_totals nd rs eq b (local_flux nd rs eq e state) (local_visc_flux nd rs eq e state grad) faces rate0 visc_faces R N BP v V) as T. cbv zeta in T.
  pose proof (local_residual_eq nd rs eq b (local_flux nd rs eq e state) (local_visc_flux nd rs eq e state grad) faces rate0 visc_faces R N) as E.
  destruct (local_residual nd rs eq b _ _ faces (rate0, visc_faces)) as [rate vf]. cbn [fst snd] in T. destruct T as [T1 T2].
  assert (M : (n_update eq <= rate_vars eq)%nat) by (unfold rate_vars; lia).
  rewrite QZ in T1 by lia. rewrite QZ in T2 by lia.
  assert (F : forall v, quad nd rs (b_weight b) (if use_filter then apply_filter nd rs (2 * n_update eq) b rate else rate) v = quad nd rs (b_weight b) rate v) by (intros; destruct use_filter; [now apply quad_filter_rows|reflexivity]).
  rewrite !F, T1, T2. split; [ring|split; [ring|]]. apply (f_equal snd) in E. cbn [snd] in E. split.
  - intros D. rewrite D in E. exact E.
  - intros i k H. rewrite E. destruct (has_diffusion eq); [|reflexivity]. now apply put_bounds_out.
Qed.
Lemma rsum_rate nd rs wt eq stage rate ref v : (stage = true -> has_diffusion eq = false) -> has_source eq = false ->
  rsum (rs ^ nd) (fun q => outer_power rs wt nd q * the_rate (rs ^ nd) eq stage rate ref v q) =
  quad nd rs wt rate v + (if has_diffusion eq then quad nd rs wt rate (rate_vars eq + v) else 0) - (if stage then quad nd rs wt ref v else 0).
Proof.
  intros H NS. unfold the_rate, quad. rewrite NS, Bool.orb_false_r. destruct stage.
  - rewrite H by reflexivity. rewrite (rsum_ext _ _ (fun q => outer_power rs wt nd q * rate (v * rs ^ nd + q)%nat - outer_power rs wt nd q * ref (v * rs ^ nd + q)%nat)) by (intros; ring). rewrite rsum_minus. ring.
  - destruct (has_diffusion eq); [|ring]. rewrite (rsum_ext _ _ (fun q => outer_power rs wt nd q * rate (v * rs ^ nd + q)%nat + outer_power rs wt nd q * rate ((rate_vars eq + v) * rs ^ nd + q)%nat)) by (intros; ring). rewrite rsum_plus. ring.
Qed.
Record local_result (nd rs : nat) (eq : pde) (b : basis) (update : R) (stage cr : bool) (e : elem) (state ref : arr) (faces visc_faces : nat -> arr) (out : (arr * arr) * ((nat -> arr) * (nat -> arr))) : Prop := {
  lr_change : forall v, (v < n_update eq)%nat -> amount nd rs (b_weight b) e (fun k => if cr then snd (fst out) k else fst (fst out) k - state k) v =
    update * (e_size e ^ (nd - 1) * (- (if has_convection eq then flux_out nd rs (b_weight b) faces v else 0) - (if has_diffusion eq then flux_out nd rs (b_weight b) (snd (snd out)) v else 0) - (if stage then quad nd rs (b_weight b) ref v else 0)));
  lr_state : cr = true -> fst (fst out) = state;
  lr_cache : cr = false -> stage = false -> has_convection eq = true -> forall v, (v < n_update eq)%nat -> quad nd rs (b_weight b) (snd (fst out)) v = - flux_out nd rs (b_weight b) faces v;
  lr_cache_kept : cr = false -> (stage || negb (has_convection eq))%bool = true -> snd (fst out) = ref;
  lr_faces : has_diffusion eq = true -> fst (snd out) = faces;
  lr_visc : has_diffusion eq = false -> snd (snd out) = visc_faces;
  lr_visc_other : forall i k, (2 * nd <= i \/ n_update eq * rs ^ (nd - 1) <= k)%nat -> snd (snd out) i k = visc_faces i k }.
Lemma local_change nd rs eq b dt stage cr use_filter e state ref faces visc_faces : (0 < rs)%nat -> (0 < nd)%nat -> good rs b -> ready nd rs e -> additive eq -> has_source eq = false ->
  (has_diffusion eq = true -> n_extrap eq <= 2 * n_update eq)%nat -> (stage = true -> has_diffusion eq = false) ->
  local_result nd rs eq b (if stage then dt * b_step_ratio b else dt) stage cr e state ref faces visc_faces (local nd rs eq b dt stage cr use_filter e state ref faces visc_faces).
Proof.
  intros R N G RD A NS NE SD. rewrite local_eq.
  pose proof (fun v => local_rate_totals nd rs eq b stage use_filter e state faces visc_faces v R N G NS NE) as T.
  destruct (local_rate nd rs eq b stage use_filter e state faces visc_faces) as [rate vf] eqn:LR.
  pose proof (local_rate_totals nd rs eq b stage use_filter e state faces visc_faces) as T'. rewrite LR in T'.
  set (update := if stage then dt * b_step_ratio b else dt).
  destruct (local_write_values nd rs eq e update stage cr rate state ref R A) as [W1 W2].
  destruct (local_write nd rs eq e update stage cr rate (state, ref)) as [state' ref']. cbn [fst snd] in W1, W2.
  assert (NQ : (0 < rs ^ nd)%nat) by now apply pow_pos'.
  assert (EXT : forall f g : arr, (forall q v, (q < rs ^ nd)%nat -> f (v * rs ^ nd + q)%nat = g (v * rs ^ nd + q)%nat) -> f = g).
  { intros f g H. apply functional_extensionality. intros k. pose proof (Nat.div_mod k (rs ^ nd) ltac:(lia)) as D. pose proof (Nat.mod_upper_bound k (rs ^ nd) ltac:(lia)) as U. specialize (H (k mod rs ^ nd)%nat (k / rs ^ nd)%nat U). replace (k / rs ^ nd * rs ^ nd + k mod rs ^ nd)%nat with k in H by lia. exact H. }
  constructor; cbn [fst snd].
  - intros v V. destruct (T v V) as (T1 & T2 & _).
    rewrite (amount_mult nd rs (b_weight b) e _ v update (the_rate (rs ^ nd) eq stage rate ref v)); [| assumption | assumption |].
    + f_equal. f_equal. rewrite rsum_rate by assumption. rewrite T1, T2. destruct (has_diffusion eq); ring.
    + intros q Q. destruct (W1 q v Q V) as [W3 W4]. destruct cr; [rewrite W4; reflexivity|rewrite W3; ring].
  - intros C. apply EXT. intros q v Q. destruct (Nat.lt_ge_cases v (n_update eq)) as [V|V]; [rewrite (proj1 (W1 q v Q V)); rewrite C; ring|apply W2; rewrite flat_div by exact Q; exact V].
  - intros C ST HC v V. destruct (T v V) as (T1 & _). rewrite HC in T1. rewrite <- T1. apply quad_ext. intros q Q. rewrite (proj2 (W1 q v Q V)). unfold the_ref. rewrite C, ST, HC. reflexivity.
  - intros C H. apply EXT. intros q v Q. destruct (Nat.lt_ge_cases v (n_update eq)) as [V|V]; [|apply W2; rewrite flat_div by exact Q; exact V]. rewrite (proj2 (W1 q v Q V)). unfold the_ref. rewrite C. destruct stage; [reflexivity|]. cbn in H. destruct (has_convection eq); [discriminate|reflexivity].
  - intros D. rewrite D. reflexivity.
  - intros D. assert (H : forall r, snd (local_residual nd rs eq b (local_flux nd rs eq e state) r faces (rate, visc_faces)) = visc_faces). { intros. rewrite local_residual_eq by assumption. rewrite D. reflexivity. }
    revert LR. unfold local_rate. rewrite D. rewrite local_residual_eq by assumption. rewrite D. intros LR. apply (f_equal snd) in LR. cbn in LR. symmetry. exact LR.
  - intros i k H. revert LR. unfold local_rate. rewrite local_residual_eq by assumption. intros LR. apply (f_equal snd) in LR. cbn [snd] in LR. rewrite <- LR. destruct (has_diffusion eq); [now apply put_bounds_out|reflexivity].
Qed.

(** ** the change of an element by [Reconcile_ldg_flux] *)
Lemma boundary_rows nd rs eq b visc_faces v : (0 < rs)%nat -> (0 < nd)%nat -> good rs b -> (v < n_update eq)%nat ->
  quad nd rs (b_weight b) (loop nd (fun i_dim => for_rows nd rs i_dim (fun ind rate => put_row (n_update eq) rs (fun i v => - d_boundary b (get_bound visc_faces ind) i v) rate ind 1)) (fun _ => 0)) v
  = - flux_out nd rs (b_weight b) visc_faces v.
Proof.
  intros R N [BP _] V. set (wt := b_weight b) in *. unfold flux_out. rewrite <- rsum_opp.
  apply (loop_inv (fun n a => quad nd rs wt a v = rsum n (fun d => - (quad (nd - 1) rs wt (visc_faces (2 * d + 1)%nat) v - quad (nd - 1) rs wt (visc_faces (2 * d)%nat) v)))).
  - cbn [rsum]. unfold quad. rewrite (rsum_ext _ _ (fun _ => 0)) by (intros; ring). apply rsum_0.
  - intros id a I E. cbn [rsum]. rewrite <- E, quad_diff, <- rsum_opp, for_rows_eq by assumption.
    apply (loop_inv (fun n c => quad nd rs wt c v = quad nd rs wt a v + rsum n (fun f => - (outer_power rs wt (nd - 1) f * (visc_faces (2 * id + 1)%nat (v * rs ^ (nd - 1) + f)%nat - visc_faces (2 * id)%nat (v * rs ^ (nd - 1) + f)%nat))))); [cbn; ring|].
    intros f c F Ec. cbn [rsum]. rewrite quad_put_row by assumption. rewrite Ec. unfold d_boundary.
    rewrite (rsum_ext rs _ (fun j => - (wt j * boundary_term (b_boundary b) wt (fun s => get_bound visc_faces (nth_row nd rs id f) s v) j))) by (intros; unfold wt; ring). rewrite (rsum_opp rs (fun j => wt j * boundary_term (b_boundary b) wt (fun s => get_bound visc_faces (nth_row nd rs id f) s v) j)). rewrite (boundary_term_sum rs (b_diff b) (b_boundary b) wt (fun s => get_bound visc_faces (nth_row nd rs id f) s v) BP).
    unfold get_bound. rewrite ri_nfq by assumption. cbn [ri_i_dim i_face_qpoint i_fq nth_row]. replace (id * 2 + 1)%nat with (2 * id + 1)%nat by lia. replace (id * 2 + 0)%nat with (2 * id)%nat by lia. ring.
Qed.
Lemma write_points nd rs eq (g : nat -> nat -> R) (a : arr) crit : (0 < rs)%nat -> additive eq ->
  let nq := (rs ^ nd)%nat in let s := loop nq (fun q data => write_point nq q (write_update eq (g q) crit) data) a in
  (forall q v, (q < nq)%nat -> (v < n_update eq)%nat -> s (v * nq + q)%nat = a (v * nq + q)%nat + g q v) /\ (forall k, (n_update eq <= k / nq)%nat -> s k = a k).
Proof.
  intros R A nq s. assert (NQ : (0 < nq)%nat) by now apply pow_pos'.
  set (P := fun m (s : arr) => (forall q v, (q < m)%nat -> (v < n_update eq)%nat -> s (v * nq + q)%nat = a (v * nq + q)%nat + g q v) /\ (forall k, (m <= k mod nq \/ n_update eq <= k / nq)%nat -> s k = a k)).
  assert (L : P nq s); [unfold s; apply (loop_inv P)|].
  - split; [intros; lia|intros; reflexivity].
  - intros q st Q (B & C). split.
    + intros q' v Q' V. destruct (Nat.eq_dec q' q) as [->|N].
      * rewrite write_point_in, A by exact Q. unfold add_update, at_point. destruct (Nat.ltb_spec v (n_update eq)); [|lia]. rewrite C by (rewrite flat_mod by exact Q; lia). reflexivity.
      * rewrite write_point_out by (rewrite flat_mod; lia). apply B; lia.
    + intros k D. rewrite <- (C k) by lia. unfold write_point. destruct (Nat.eqb_spec (k mod nq) q) as [E|]; [|reflexivity].
      rewrite A. unfold add_update, at_point. destruct (Nat.ltb_spec (k / nq) (n_update eq)); [lia|]. f_equal. pose proof (Nat.div_mod k nq). lia.
  - destruct L as [L1 L2]. split; [intros; apply L1; assumption|intros; apply L2; now right].
Qed.
Lemma reconcile_change nd rs eq b dt cr use_filter e state ref faces visc_faces : (0 < rs)%nat -> (0 < nd)%nat -> good rs b -> ready nd rs e -> additive eq ->
  let out := reconcile nd rs eq b dt cr use_filter e state ref faces visc_faces in
  (forall v, (v < n_update eq)%nat -> amount nd rs (b_weight b) e (fun k => if cr then snd (fst out) k - ref k else fst (fst out) k - state k) v = dt * (e_size e ^ (nd - 1) * - flux_out nd rs (b_weight b) visc_faces v)) /\
  (cr = true -> fst (fst out) = state) /\ (cr = false -> snd (fst out) = ref).
Proof.
  intros R N G RD A out. unfold out, reconcile. match goal with |- context [if use_filter then _ else ?r] => set (rate0 := r) end.
  set (rate := if use_filter then apply_filter nd rs (n_update eq) b rate0 else rate0).
  assert (Q0 : forall v, (v < n_update eq)%nat -> quad nd rs (b_weight b) rate v = - flux_out nd rs (b_weight b) visc_faces v).
  { intros v V. transitivity (quad nd rs (b_weight b) rate0 v); [unfold rate; destruct use_filter; [apply quad_filter_rows; [assumption|assumption|apply G]|reflexivity]|]. now apply boundary_rows. }
  cbn [fst snd].
  pose proof (write_points nd rs eq (fun q v => rate (v * rs ^ nd + q)%nat * the_mult dt e q) (if cr then ref else state) true R A) as [W1 W2]. unfold the_mult in W1, W2. cbv beta zeta in W1, W2 |- *.
  match type of W1 with context [loop ?n ?b ?s] => set (to_update := loop n b s) in * end.
  split; [|split; intros ->; reflexivity].
  intros v V. rewrite (amount_mult nd rs (b_weight b) e _ v dt (fun q => rate (v * rs ^ nd + q)%nat)); [| assumption | assumption |].
  - f_equal. f_equal. exact (Q0 v V).
  - intros q Q. pose proof (W1 q v Q V) as W. unfold the_mult. cbv zeta. destruct cr; rewrite W; ring.
Qed.
