(** A mesh in uniform flow. *)
From Coq Require Import Reals List Arith Lia Lra FunctionalExtensionality Permutation.
From Verif Require Import Outcome RSum Tensor_Spec Tensor_Proofs Row_Model Row_Spec Row_Proofs Connection_Model Basis_Spec Basis_Proofs Quad_Model Quad_Spec Quad_Proofs Spatial_Model Spatial_Spec Spatial_Proofs Spatial_Proofs2 Spatial_Proofs3 Spatial_Proofs4 Spatial_Proofs5 Spatial_Proofs6 Free_Spec Free_Proofs1 Free_Proofs2.
Import ListNotations.
Local Open Scope R_scope.

Section Mesh.
Variables (m : mesh) (size : nat -> R) (positive : nat -> bool) (ghosts : list nat) (eq : pde) (n : nat) (u ue : nat -> R) (f : nat -> nat -> R) (fn : nat -> arr).
Hypothesis F : fits m size positive ghosts.
Let nd := m_dim m.
Let rs := m_row_size m.
Let b := m_basis m.
Let nfq := (rs ^ (nd - 1))%nat.
Hypotheses (U : unital rs b) (C : carried nd eq n u ue f) (A : additive eq) (HC : has_convection eq = true) (HD : has_diffusion eq = false) (HS : has_source eq = false) (CL : closed m fn).
Let R0 : (0 < rs)%nat. Proof. pose proof (fit_rows _ _ _ _ F). unfold rs. lia. Qed.
Let N0 : (0 < nd)%nat. Proof. pose proof (fit_dim _ _ _ _ F). unfold nd. lia. Qed.
(** the face holds the flux through its normal *)
Definition carries (s : nat -> arr) (id : nat) : Prop := forall v q, (v < n_update eq)%nat -> (q < nfq)%nat -> s id (v * nfq + q)%nat = rsum nd (fun j => fn id (j * nfq + q)%nat * f j v).

Lemma neighbors_uniform x : (forall id, In id (side_faces (cons m)) -> filled (n_extrap eq) nfq ue (d_st x id)) ->
  let x' := run_neighbor m eq (cons m) x in
  (forall id, ~ In id (side_faces (cons m)) -> d_st x' id = d_st x id) /\ (forall id, In id (side_faces (cons m)) -> carries (d_st x') id).
Proof.
  intros FI. cbv zeta. unfold run_neighbor. set (step := fun s c => neighbor (m_dim m) (m_row_size m) eq c s).
  pose (get := fun (s : (nat -> arr) * (nat -> arr)) (k : nat) => fst s k).
  pose (Q := fun (c : con) (s t : (nat -> arr) * (nat -> arr)) => (forall side, filled (n_extrap eq) nfq ue (fst s (c_face c side))) -> forall side, carries (fst t) (c_face c side)).
  pose proof (fold_frame get step (fun c => [c_face c false; c_face c true]) Q (cons m)) as X.
  destruct (X) with (s := (d_st x, d_ldg x)) as [X1 X2]; clear X.
  - intros c [st ldg] k I K. unfold get, step. destruct (neighbor_spec (m_dim m) (m_row_size m) eq c st ldg R0 (sides_apart m size positive ghosts F c I)) as [O _ _ _ _ _ _]. destruct (O k) as [O1 O2]; [intros ->; apply K; now left|intros ->; apply K; right; now left|]. exact O1.
  - intros c [st ldg] I FS side v q V QQ. apply (neighbor_uniform nd rs eq n u ue f R0 C HC c st ldg fn (sides_apart m size positive ghosts F c I) FS); try assumption.
    + intros j p J P. apply (cl_con0 _ _ CL); assumption.
    + intros j p J P. apply (cl_con1 _ _ CL); assumption.
  - intros c s t s' t' I E E' H FS side v q V QQ. assert (IN : forall side, In (c_face c side) [c_face c false; c_face c true]) by (intros []; [right; now left|now left]).
    specialize (E' _ (IN side)). unfold get in E'. rewrite <- E'. apply H; try assumption. intros sd. specialize (E _ (IN sd)). unfold get in E. rewrite E. apply FS.
  - exact (sides_nodup m size positive ghosts F).
  - destruct (fold_left step (cons m) (d_st x, d_ldg x)) as [st ldg] eqn:ES. cbn [d_st]. split.
    + intros id K. specialize (X1 id K). exact X1.
    + intros id I. apply in_flat_map in I as (c & I & J). assert (K : forall side, carries st (c_face c side)).
      { apply (X2 c I). intros side. apply FI. now apply side_in. }
      destruct J as [<-|[<-|[]]]; apply K.
Qed.
Lemma mortar_side id : In id (all_mortars m) -> In id (side_faces (cons m)).
Proof.
  intros I. assert (J : In id (side_faces (cons m) ++ coarse_faces m)) by (apply (Permutation_in _ (Permutation_sym (fit_matched _ _ _ _ F))), in_or_app; right; apply in_or_app; now left).
  apply in_app_or in J as [J|J]; [exact J|]. exfalso. apply (inner_mortar m size positive ghosts F id); [now apply (coarse_inner m size positive ghosts F)|exact I].
Qed.
Lemma inner_side id : In id (inner_faces m) -> In id (side_faces (cons m)) \/ In id (coarse_faces m).
Proof. intros I. apply in_app_or. apply (Permutation_in _ (Permutation_sym (fit_matched _ _ _ _ F))), in_or_app. now left. Qed.
Lemma restrict_value s r v q : In r (ref_faces m) -> (v < n_extrap eq)%nat -> (q < nfq)%nat ->
  the_restrict m eq true s (r_coarse r) (v * nfq + q)%nat = rsum (n_fine nd (r_stretch r)) (fun k => face_dims nd rs (r_stretch r) (fun x => x / 2) (b_restrict b) k (var_of nfq v (s (r_fine r k))) q).
Proof.
  intros I V Q. unfold the_restrict. set (step := fun s r => restrict_refined _ _ _ _ _ _ _ _ s).
  pose (P := fun (r : refined_face) (s t : nat -> arr) => t (r_coarse r) (v * nfq + q)%nat = rsum (n_fine nd (r_stretch r)) (fun k => face_dims nd rs (r_stretch r) (fun x => x / 2) (b_restrict b) k (var_of nfq v (s (r_fine r k))) q)).
  pose proof (fold_frame (fun (s : nat -> arr) k => s k) step (touched m) P (ref_faces m)) as X.
  destruct (X) with (s := s) as [_ X2]; clear X; [| | | |exact (X2 r I)].
  - intros r' s' k _ K. destruct (touched_out m size positive ghosts F r' k K) as [T1 T2]. now apply restrict_refined_other.
  - intros r' s' I'. apply restrict_refined_value; try assumption; [intros; now apply (coarse_fine m size positive ghosts F)|now apply (fine_inj m size positive ghosts F)].
  - intros r' s1 t1 s2 t2 I' E E' H. unfold P. rewrite <- (E' (r_coarse r')) by now left. rewrite H. apply rsum_ext. intros k K. rewrite (E (r_fine r' k)); [reflexivity|]. right. apply in_map, in_seq. fold nd. lia.
  - exact (touched_nodup m size positive ghosts F).
Qed.
Lemma refined_uniform s : (forall id, In id (side_faces (cons m)) -> carries s id) -> forall id, In id (inner_faces m) -> carries (the_restrict m eq true s) id.
Proof.
  intros S id I. destruct (inner_side id I) as [J|J].
  - intros v q V Q. rewrite (the_restrict_other m size positive ghosts eq F); [now apply S|now apply (side_coarse m size positive ghosts F)|now apply (inner_mortar m size positive ghosts F)].
  - apply in_map_iff in J as (r & <- & J). intros v q V Q. pose proof (ca_size _ _ _ _ _ _ C) as SZ. rewrite restrict_value by (try assumption; lia).
    rewrite (rsum_ext nd _ (fun j => rsum (n_fine nd (r_stretch r)) (fun k => face_dims nd rs (r_stretch r) (fun x => x / 2) (b_restrict b) k (var_of nfq j (fn (r_fine r k))) q * f j v))).
    + rewrite rsum_swap. apply rsum_ext. intros k K. apply (face_dims_sum nd rs (r_stretch r) (/ 2) (b_restrict b) k nd (var_of nfq v (s (r_fine r k))) (fun j => var_of nfq j (fn (r_fine r k))) (fun j => f j v) R0); [|exact Q].
      intros p P. unfold var_of. apply S; [|exact V|exact P]. apply mortar_side. now apply (mortar_in m size positive ghosts F).
    + intros j J'. rewrite rsum_scal_r. f_equal. apply (cl_refined _ _ CL); assumption.
Qed.

(** ** elements *)
Let place (x : data) (k : nat + nat) : arr * arr := match k with inl id => (d_st x id, d_ldg x id) | inr i => (d_state x i, d_ref x i) end.
Let places (i : nat) : list (nat + nat) := inr i :: map inl (faces_of nd (m_elem m i)).
Definition before (stage : bool) (i : nat) (x : data) : Prop :=
  filled n (rs ^ nd) u (d_state x i) /\ (forall k, (k < 2 * nd)%nat -> carries (d_st x) (e_face (m_elem m i) k)) /\ (stage = true -> filled (n_update eq) (rs ^ nd) (fun _ => 0) (d_ref x i)).
Definition after (i : nat) (x x' : data) : Prop :=
  d_state x' i = d_state x i /\ filled (n_update eq) (rs ^ nd) (fun _ => 0) (d_ref x' i) /\ forall k, (k < 2 * nd)%nat -> filled (n_extrap eq) nfq ue (d_st x' (e_face (m_elem m i) k)).
Lemma elements_uniform dt (stage cr uf : bool) x : (forall i, In i (elems m) -> before stage i x) ->
  let x' := run_local m eq dt stage cr uf (elems m) x in
  (forall id, ~ In id (inner_faces m) -> d_st x' id = d_st x id) /\ (forall i, In i (elems m) -> after i x x').
Proof.
  intros B. cbv zeta. unfold run_local. set (step := fun x i => _).
  assert (EQ : forall x i, step x i = let o := local nd rs eq b dt stage cr uf (m_elem m i) (d_state x i) (d_ref x i) (gather (m_elem m i) (d_st x)) (gather (m_elem m i) (d_ldg x)) in
     {| d_st := scatter nd (m_elem m i) (fst (snd o)) (d_st x); d_ldg := scatter nd (m_elem m i) (snd (snd o)) (d_ldg x); d_state := fput (d_state x) i (fst (fst o)); d_ref := fput (d_ref x) i (snd (fst o)) |}).
  { intros y i. unfold step, nd, rs, b. cbv zeta. destruct (local _ _ _ _ _ _ _ _ _ _ _ _ _) as [[st rf] [fc vf]]. reflexivity. }
  pose proof (fold_frame place step places (fun i s t => before stage i s -> after i s t) (elems m)) as X.
  destruct (X) with (s := x) as [X1 X2]; clear X.
  - intros i y k I K. destruct (places_out m size positive ghosts F i k K) as [K1 K2]. rewrite EQ. cbv zeta. set (o := local _ _ _ _ _ _ _ _ _ _ _ _ _). destruct k as [id|j]; cbn [place d_st d_ldg d_state d_ref].
    + rewrite !(scatter_out m) by (intros k KI E; apply (K1 k KI); now rewrite E). reflexivity.
    + rewrite !fput_out by congruence. reflexivity.
  - intros i y I (B1 & B2 & B3). rewrite EQ. cbv zeta. set (o := local _ _ _ _ _ _ _ _ _ _ _ _ _). unfold after. cbn [d_st d_ldg d_state d_ref]. rewrite !fput_in.
    destruct (local_uniform nd rs eq b n u ue f R0 N0 U C A HC HD HS dt stage cr uf (m_elem m i) (d_state y i) (d_ref y i) (gather (m_elem m i) (d_st y)) (gather (m_elem m i) (d_ldg y)) (fun k => fn (e_face (m_elem m i) k))) as (O1 & O2 & O3).
    + now apply (cl_elem _ _ CL).
    + exact B1.
    + intros k v q K V Q. unfold gather. now apply (B2 k K v q V Q).
    + exact B3.
    + fold o in O1, O2, O3. split; [exact O1|]. split; [exact O2|]. intros k K. rewrite (scatter_in m size positive ghosts F) by (try apply (face_inj m size positive ghosts F); assumption). now apply O3.
  - intros i s t s' t' I E E' H (B1 & B2 & B3).
    assert (A1 : d_state s i = d_state s' i /\ d_ref s i = d_ref s' i) by (specialize (E (inr i) (or_introl eq_refl)); cbn in E; injection E; auto).
    assert (A2 : d_state t i = d_state t' i /\ d_ref t i = d_ref t' i) by (specialize (E' (inr i) (or_introl eq_refl)); cbn in E'; injection E'; auto).
    assert (A3 : forall k, (k < 2 * nd)%nat -> d_st s (e_face (m_elem m i) k) = d_st s' (e_face (m_elem m i) k)) by (intros k FI; specialize (E _ (places_face m size positive ghosts F i k FI)); cbn in E; injection E; auto).
    assert (A4 : forall k, (k < 2 * nd)%nat -> d_st t (e_face (m_elem m i) k) = d_st t' (e_face (m_elem m i) k)) by (intros k FI; specialize (E' _ (places_face m size positive ghosts F i k FI)); cbn in E'; injection E'; auto).
    destruct A1 as [A1 A1'], A2 as [A2 A2']. destruct H as (H1 & H2 & H3).
    + split; [rewrite A1; exact B1|]. split; [intros k K v q V Q; rewrite A3 by exact K; now apply B2|rewrite A1'; exact B3].
    + unfold after. rewrite <- A1, <- A2, <- A2'. split; [exact H1|]. split; [exact H2|]. intros k K. rewrite <- A4 by exact K. now apply H3.
  - exact (places_nodup m size positive ghosts F).
  - split; [|intros i I; now apply X2, B]. intros id I. specialize (X1 (inl id) (places_face_out m id I)). cbn in X1. now injection X1 as -> _.
Qed.
Lemma mortars_uniform s : (forall id, In id (coarse_faces m) -> filled (n_extrap eq) nfq ue (s id)) -> forall id, In id (all_mortars m) -> filled (n_extrap eq) nfq ue (the_prolong m eq false s id).
Proof.
  intros FI id I. apply in_flat_map in I as (r & I & J). apply in_map_iff in J as (k & <- & K). apply in_seq in K. unfold the_prolong. set (step := fun s r => prolong_refined _ _ _ _ _ _ _ _ s).
  pose (P := fun (r : refined_face) (s t : nat -> arr) => filled (n_extrap eq) nfq ue (s (r_coarse r)) -> forall k, (k < n_fine nd (r_stretch r))%nat -> filled (n_extrap eq) nfq ue (t (r_fine r k))).
  pose proof (fold_frame (fun (s : nat -> arr) k => s k) step (touched m) P (ref_faces m)) as X.
  destruct (X) with (s := s) as [_ X2]; clear X; [| | | |apply (X2 r I); [apply FI; now apply coarse_in|fold nd in K; lia]].
  - intros r' s' i _ KK. destruct (touched_out m size positive ghosts F r' i KK) as [T1 T2]. now apply prolong_refined_other.
  - intros r' s' I' FC i KI. apply prolong_refined_const; try assumption. intros; now apply (coarse_fine m size positive ghosts F).
  - intros r' s1 t1 s2 t2 I' E E' H FC i KI. rewrite <- (E' (r_fine r' i)) by (right; apply in_map, in_seq; fold nd; lia). apply H; [rewrite (E (r_coarse r')) by (now left); exact FC|exact KI].
  - exact (touched_nodup m size positive ghosts F).
Qed.
Lemma convection_uniform dt (stage cr uf : bool) x : uniform m eq n u ue x -> (stage = true -> forall i, In i (elems m) -> filled (n_update eq) (rs ^ nd) (fun _ => 0) (d_ref x i)) ->
  let x' := compute_convection m eq dt stage cr uf x in
  (forall i, In i (elems m) -> d_state x' i = d_state x i /\ filled (n_update eq) (rs ^ nd) (fun _ => 0) (d_ref x' i)) /\
  (forall id, In id (inner_faces m) \/ In id (all_mortars m) -> filled (n_extrap eq) nfq ue (d_st x' id)).
Proof.
  intros UN RF x'. unfold x', compute_convection. rewrite run_neighbor_app, run_local_app. change (car_cons m ++ def_cons m) with (cons m). change (car_elems m ++ def_elems m) with (elems m).
  set (x1 := run_neighbor m eq (cons m) x). destruct (neighbors_uniform x (un_sides _ _ _ _ _ _ UN)) as [N1 N2]. fold x1 in N1, N2.
  destruct (run_neighbor_keeps m eq (cons m) x) as [K1 K2]. fold x1 in K1, K2.
  set (x2 := run_restrict m eq true false x1). assert (E2 : d_st x2 = the_restrict m eq true (d_st x1)) by reflexivity.
  set (x3 := run_local m eq dt stage cr uf (elems m) x2).
  destruct (elements_uniform dt stage cr uf x2) as [L1 L2].
  { intros i I. split; [change (d_state x2) with (d_state x1); rewrite K1; now apply (un_state _ _ _ _ _ _ UN)|]. split.
    - intros k K. rewrite E2. apply refined_uniform; [exact N2|]. now apply (face_in m size positive ghosts F).
    - intros S. change (d_ref x2) with (d_ref x1). rewrite K2. now apply RF. }
  fold x3 in L1, L2. split.
  - intros i I. destruct (L2 i I) as (A1 & A2 & _). change (d_state (run_prolong m eq false false x3) i) with (d_state x3 i). change (d_ref (run_prolong m eq false false x3) i) with (d_ref x3 i). split; [|exact A2]. rewrite A1. change (d_state x2) with (d_state x1). now rewrite K1.
  - assert (IN : forall id, In id (inner_faces m) -> filled (n_extrap eq) nfq ue (d_st x3 id)).
    { intros id I. apply in_flat_map in I as (i & I & J). apply in_map_iff in J as (k & <- & K). apply in_seq in K. apply (L2 i I). fold nd in K. lia. }
    change (d_st (run_prolong m eq false false x3)) with (the_prolong m eq false (d_st x3)). intros id [I|I].
    + rewrite (the_prolong_other m size positive ghosts eq F); [now apply IN|]. now apply (inner_mortar m size positive ghosts F).
    + apply mortars_uniform; [|exact I]. intros id' I'. apply IN. now apply (coarse_inner m size positive ghosts F).
Qed.
End Mesh.
