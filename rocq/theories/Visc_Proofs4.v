(** A mesh in uniform viscous flow. *)
From Coq Require Import Reals List Arith Lia Lra FunctionalExtensionality Permutation.
From Verif Require Import Outcome RSum Tensor_Spec Tensor_Proofs Row_Model Row_Spec Row_Proofs Connection_Model Basis_Spec Basis_Proofs Quad_Model Quad_Spec Quad_Proofs Spatial_Model Spatial_Spec Spatial_Proofs Spatial_Proofs2 Spatial_Proofs3 Spatial_Proofs4 Spatial_Proofs5 Spatial_Proofs6 Free_Spec Free_Proofs1 Free_Proofs2 Free_Proofs3 Free_Proofs4 Visc_Spec Visc_Proofs1 Visc_Proofs2 Visc_Proofs3.
Import ListNotations.
Local Open Scope R_scope.

Section Mesh.
Variables (m : mesh) (size : nat -> R) (positive : nat -> bool) (ghosts : list nat) (node w : nat -> R) (ratio : R) (eq : pde) (n : nat) (u ue : nat -> R) (f : nat -> nat -> R) (fn : nat -> arr) (flux_bc : (nat -> arr) -> nat -> arr).
Hypothesis F : fits m size positive ghosts.
Let nd := m_dim m.
Let rs := m_row_size m.
Let b := m_basis m.
Let nfq := (rs ^ (nd - 1))%nat.
Hypotheses (B : m_basis m = basis_on rs node w ratio) (LB : as_lobatto rs node w) (C : carried nd eq n u ue f) (A : additive eq) (HC : has_convection eq = true) (HD : has_diffusion eq = true) (HS : has_source eq = false)
  (NE : (n_extrap eq <= 2 * n_update eq)%nat) (ST : still nd eq) (CL : closed m fn) (SE : sees m fn) (IB : insulating m (n_update eq) ghosts flux_bc).
Let R2 : (2 <= rs)%nat. Proof. pose proof (fit_rows _ _ _ _ F). unfold rs. lia. Qed.
Let R0 : (0 < rs)%nat. Proof. lia. Qed.
Let N3 : (1 <= nd <= 3)%nat. Proof. pose proof (fit_dim _ _ _ _ F). unfold nd. lia. Qed.
Let N0 : (0 < nd)%nat. Proof. lia. Qed.
Let U : unital rs b. Proof. unfold b. rewrite B. apply basis_unital; [exact R0|apply LB]. Qed.
Let SZ : (n_update eq <= n_extrap eq)%nat. Proof. exact (ca_size _ _ _ _ _ _ C). Qed.
Let DC : forall c i, (i < rs)%nat -> derivative rs (b_diff b) (b_boundary b) (b_weight b) (fun _ => c) (fun _ => c) i = 0.
Proof. intros c i I. unfold b. rewrite B. apply derivative_const; [exact R0|apply LB|exact I]. Qed.
Let stage_in (c : con) side : In (c_face c side) [c_face c false; c_face c true]. Proof. destruct side; [right; now left|now left]. Qed.

(** ** connections *)
Lemma averages_uniform x : (forall id, In id (side_faces (cons m)) -> filled (n_extrap eq) nfq ue (d_st x id)) ->
  forall id, In id (side_faces (cons m)) -> filled (n_extrap eq) nfq ue (d_ldg (run_neighbor m eq (cons m) x) id).
Proof.
  intros FI id I. unfold run_neighbor. set (step := fun s c => neighbor (m_dim m) (m_row_size m) eq c s).
  pose (get := fun (s : (nat -> arr) * (nat -> arr)) (k : nat) => (fst s k, snd s k)).
  pose (Q := fun (c : con) (s t : (nat -> arr) * (nat -> arr)) => (forall side, filled (n_extrap eq) nfq ue (fst s (c_face c side))) -> forall side, filled (n_extrap eq) nfq ue (snd t (c_face c side))).
  pose proof (fold_frame get step (fun c => [c_face c false; c_face c true]) Q (cons m)) as X.
  destruct (X) with (s := (d_st x, d_ldg x)) as [_ X2]; clear X.
  - intros c [st ldg] k J K. unfold get, step. destruct (neighbor_spec (m_dim m) (m_row_size m) eq c st ldg R0 (sides_apart m size positive ghosts F c J)) as [O _ _ _ _ _ _]. destruct (O k) as [O1 O2]; [intros ->; apply K; now left|intros ->; apply K; right; now left|]. cbn [fst snd]. now rewrite O1, O2.
  - intros c [st ldg] J FS side. apply neighbor_average; try assumption. exact (sides_apart m size positive ghosts F c J).
  - intros c s t s' t' J E E' H FS side. specialize (E' _ (stage_in c side)). unfold get in E'. injection E' as _ E'. rewrite <- E'. apply H. intros sd. specialize (E _ (stage_in c sd)). unfold get in E. injection E as E _. rewrite E. apply FS.
  - exact (sides_nodup m size positive ghosts F).
  - destruct (fold_left step (cons m) (d_st x, d_ldg x)) as [st ldg] eqn:ES. cbn [d_ldg].
    apply in_flat_map in I as (c & I & J). assert (K : forall side, filled (n_extrap eq) nfq ue (ldg (c_face c side))) by (apply (X2 c I); intros side; apply FI; now apply side_in).
    destruct J as [<-|[<-|[]]]; apply K.
Qed.
Lemma sides_zero junk x : (forall id, In id (side_faces (cons m)) -> zeros (n_update eq) nfq (d_ldg x id)) ->
  forall id, In id (side_faces (cons m)) -> zeros (n_update eq) nfq (d_ldg (run_neighbor_reconcile m eq junk (cons m) x) id).
Proof.
  intros FI id I. cbn [run_neighbor_reconcile d_ldg]. set (step := fun s c => neighbor_reconcile _ _ _ _ _ _).
  pose (Q := fun (c : con) (s t : nat -> arr) => (forall side, zeros (n_update eq) nfq (s (c_face c side))) -> forall side, zeros (n_update eq) nfq (t (c_face c side))).
  pose proof (fold_frame (fun (s : nat -> arr) k => s k) step (fun c => [c_face c false; c_face c true]) Q (cons m)) as X.
  destruct (X) with (s := d_ldg x) as [_ X2]; clear X.
  - intros c s k J K. apply neighbor_reconcile_other; intros ->; apply K; [now left|right; now left].
  - intros c s J FS side. apply reconcile_zeros; try assumption. exact (sides_apart m size positive ghosts F c J).
  - intros c s t s' t' J E E' H FS side. rewrite <- (E' _ (stage_in c side)). apply H. intros sd. rewrite (E _ (stage_in c sd)). apply FS.
  - exact (sides_nodup m size positive ghosts F).
  - apply in_flat_map in I as (c & I & J). assert (K : forall side, zeros (n_update eq) nfq (fold_left step (cons m) (d_ldg x) (c_face c side))) by (apply (X2 c I); intros side; apply FI; now apply side_in).
    destruct J as [<-|[<-|[]]]; apply K.
Qed.

(** ** refined faces *)
Lemma restrict_value_at scl s r v q : In r (ref_faces m) -> (v < n_extrap eq)%nat -> (q < nfq)%nat ->
  the_restrict m eq scl s (r_coarse r) (v * nfq + q)%nat = rsum (n_fine nd (r_stretch r)) (fun k => face_dims nd rs (r_stretch r) (fun x => x / (1 + INR (Nat.b2n scl))) (b_restrict b) k (var_of nfq v (s (r_fine r k))) q).
Proof.
  intros I V Q. unfold the_restrict. set (step := fun s r => restrict_refined _ _ _ _ _ _ _ _ s).
  pose (P := fun (r : refined_face) (s t : nat -> arr) => t (r_coarse r) (v * nfq + q)%nat = rsum (n_fine nd (r_stretch r)) (fun k => face_dims nd rs (r_stretch r) (fun x => x / (1 + INR (Nat.b2n scl))) (b_restrict b) k (var_of nfq v (s (r_fine r k))) q)).
  pose proof (fold_frame (fun (s : nat -> arr) k => s k) step (touched m) P (ref_faces m)) as X.
  destruct (X) with (s := s) as [_ X2]; clear X; [| | | |exact (X2 r I)].
  - intros r' s' k _ K. destruct (touched_out m size positive ghosts F r' k K) as [T1 T2]. now apply restrict_refined_other.
  - intros r' s' I'. apply restrict_refined_at; try assumption; [intros; now apply (coarse_fine m size positive ghosts F)|now apply (fine_inj m size positive ghosts F)].
  - intros r' s1 t1 s2 t2 I' E E' H. unfold P. rewrite <- (E' (r_coarse r')) by now left. rewrite H. apply rsum_ext. intros k K. rewrite (E (r_fine r' k)); [reflexivity|]. right. apply in_map, in_seq. fold nd. lia.
  - exact (touched_nodup m size positive ghosts F).
Qed.
Lemma restrict_average s : (forall id, In id (side_faces (cons m)) -> filled (n_extrap eq) nfq ue (s id)) -> forall id, In id (inner_faces m) -> filled (n_extrap eq) nfq ue (the_restrict m eq false s id).
Proof.
  intros S id I v q V Q. destruct (inner_side m size positive ghosts F id I) as [J|J].
  - rewrite (the_restrict_other m size positive ghosts eq F); [now apply S|now apply (side_coarse m size positive ghosts F)|now apply (inner_mortar m size positive ghosts F)].
  - apply in_map_iff in J as (r & <- & J). rewrite restrict_value_at by assumption. rewrite by_one. unfold b. rewrite B.
    rewrite (rsum_ext _ _ (fun k => face_dims nd rs (r_stretch r) (fun x => x) (b_restrict (basis_on rs node w ratio)) k (fun _ => ue v) q)); [now apply halves_any|].
    intros k K. pose proof (face_dims_sum nd rs (r_stretch r) 1 (b_restrict (basis_on rs node w ratio)) k 1 (var_of nfq v (s (r_fine r k))) (fun _ _ => ue v) (fun _ => 1) R0) as H.
    assert (E1 : (fun x : R => x * 1) = (fun x => x)) by (apply functional_extensionality; intros; ring). rewrite E1 in H. rewrite H; [cbn [rsum]; ring| |exact Q].
    intros p P. unfold var_of. cbn [rsum]. rewrite S; [ring| |exact V|exact P]. apply (mortar_side m size positive ghosts F). now apply (mortar_in m size positive ghosts F).
Qed.
Lemma restrict_zero s : (forall id, In id (side_faces (cons m)) -> zeros (n_update eq) nfq (s id)) -> forall id, In id (inner_faces m) -> zeros (n_update eq) nfq (the_restrict m eq true s id).
Proof.
  intros S id I v q V Q. destruct (inner_side m size positive ghosts F id I) as [J|J].
  - rewrite (the_restrict_other m size positive ghosts eq F); [now apply S|now apply (side_coarse m size positive ghosts F)|now apply (inner_mortar m size positive ghosts F)].
  - apply in_map_iff in J as (r & <- & J). rewrite restrict_value_at by (try assumption; lia). rewrite (rsum_ext _ _ (fun _ => 0)); [apply rsum_0|]. intros k K.
    apply (face_dims_zero nd rs (r_stretch r) (/ (1 + INR (Nat.b2n true))) (b_restrict b) k); [exact R0| |exact Q]. intros p P. unfold var_of. apply S; [|exact V|exact P]. apply (mortar_side m size positive ghosts F). now apply (mortar_in m size positive ghosts F).
Qed.
Lemma prolong_zero scl s : (forall id, In id (coarse_faces m) -> zeros (n_update eq) nfq (s id)) -> forall id, In id (all_mortars m) -> zeros (n_update eq) nfq (the_prolong m eq scl s id).
Proof.
  intros FI id I. apply in_flat_map in I as (r & I & J). apply in_map_iff in J as (k & <- & K). apply in_seq in K. unfold the_prolong. set (step := fun s r => prolong_refined _ _ _ _ _ _ _ _ s).
  pose (P := fun (r : refined_face) (s t : nat -> arr) => zeros (n_update eq) nfq (s (r_coarse r)) -> forall k, (k < n_fine nd (r_stretch r))%nat -> zeros (n_update eq) nfq (t (r_fine r k))).
  pose proof (fold_frame (fun (s : nat -> arr) k => s k) step (touched m) P (ref_faces m)) as X.
  destruct (X) with (s := s) as [_ X2]; clear X; [| | | |apply (X2 r I); [apply FI; now apply coarse_in|fold nd in K; lia]].
  - intros r' s' i _ KK. destruct (touched_out m size positive ghosts F r' i KK) as [T1 T2]. now apply prolong_refined_other.
  - intros r' s' I' FC i KI. apply prolong_zeros; try assumption. intros; now apply (coarse_fine m size positive ghosts F).
  - intros r' s1 t1 s2 t2 I' E E' H FC i KI. rewrite <- (E' (r_fine r' i)) by (right; apply in_map, in_seq; fold nd; lia). apply H; [rewrite (E (r_coarse r')) by (now left); exact FC|exact KI].
  - exact (touched_nodup m size positive ghosts F).
Qed.

(** ** elements *)
Let place (x : data) (k : nat + nat) : arr * arr := match k with inl id => (d_st x id, d_ldg x id) | inr i => (d_state x i, d_ref x i) end.
Let places (i : nat) : list (nat + nat) := inr i :: map inl (faces_of nd (m_elem m i)).
Definition visc_before (i : nat) (x : data) : Prop :=
  filled n (rs ^ nd) u (d_state x i) /\ (forall k, (k < 2 * nd)%nat -> carries m eq f fn (d_st x) (e_face (m_elem m i) k)) /\ (forall k, (k < 2 * nd)%nat -> filled (n_extrap eq) nfq ue (d_ldg x (e_face (m_elem m i) k))).
Definition visc_after (i : nat) (x x' : data) : Prop :=
  d_state x' i = d_state x i /\ zeros (n_update eq) (rs ^ nd) (d_ref x' i) /\ forall k, (k < 2 * nd)%nat -> zeros (n_update eq) nfq (d_ldg x' (e_face (m_elem m i) k)).
Lemma elements_still dt (cr uf : bool) x : (forall i, In i (elems m) -> visc_before i x) -> forall i, In i (elems m) -> visc_after i x (run_local m eq dt false cr uf (elems m) x).
Proof.
  intros BF. unfold run_local. set (step := fun x i => _).
  assert (EQ : forall x i, step x i = let o := local nd rs eq b dt false cr uf (m_elem m i) (d_state x i) (d_ref x i) (gather (m_elem m i) (d_st x)) (gather (m_elem m i) (d_ldg x)) in
     {| d_st := scatter nd (m_elem m i) (fst (snd o)) (d_st x); d_ldg := scatter nd (m_elem m i) (snd (snd o)) (d_ldg x); d_state := fput (d_state x) i (fst (fst o)); d_ref := fput (d_ref x) i (snd (fst o)) |}).
  { intros y i. unfold step, nd, rs, b. cbv zeta. destruct (local _ _ _ _ _ _ _ _ _ _ _ _ _) as [[st rf] [fc vf]]. reflexivity. }
  pose proof (fold_frame place step places (fun i s t => visc_before i s -> visc_after i s t) (elems m)) as X.
  destruct (X) with (s := x) as [_ X2]; clear X.
  - intros i y k I K. destruct (places_out m size positive ghosts F i k K) as [K1 K2]. rewrite EQ. cbv zeta. set (o := local _ _ _ _ _ _ _ _ _ _ _ _ _). destruct k as [id|j]; cbn [place d_st d_ldg d_state d_ref].
    + rewrite !(scatter_out m) by (intros k KI E; apply (K1 k KI); now rewrite E). reflexivity.
    + rewrite !fput_out by congruence. reflexivity.
  - intros i y I (B1 & B2 & B3). rewrite EQ. cbv zeta. set (o := local _ _ _ _ _ _ _ _ _ _ _ _ _). unfold visc_after. cbn [d_st d_ldg d_state d_ref]. rewrite !fput_in.
    destruct (local_still nd rs eq b (m_elem m i) n u ue f (fun k => fn (e_face (m_elem m i) k)) R0 N0 C A HC HD HS NE ST DC) with (dt := dt) (cr := cr) (uf := uf) (state := d_state y i) (ref := d_ref y i) (faces := gather (m_elem m i) (d_st y)) (vf := gather (m_elem m i) (d_ldg y)) as (O1 & O2 & O3).
    + now apply (cl_elem _ _ CL).
    + intros DF k j q K J Q. now apply SE.
    + exact B1.
    + intros k K. now apply B3.
    + intros k v q K V Q. unfold gather. now apply (B2 k K v q V Q).
    + fold o in O1, O2, O3. split; [exact O1|]. split; [exact O2|]. intros k K. rewrite (scatter_in m size positive ghosts F) by (try apply (face_inj m size positive ghosts F); assumption). now apply O3.
  - intros i s t s' t' I E E' H (B1 & B2 & B3).
    assert (A1 : d_state s i = d_state s' i /\ d_ref s i = d_ref s' i) by (specialize (E (inr i) (or_introl eq_refl)); cbn in E; injection E; auto).
    assert (A2 : d_state t i = d_state t' i /\ d_ref t i = d_ref t' i) by (specialize (E' (inr i) (or_introl eq_refl)); cbn in E'; injection E'; auto).
    assert (A3 : forall k, (k < 2 * nd)%nat -> d_st s (e_face (m_elem m i) k) = d_st s' (e_face (m_elem m i) k) /\ d_ldg s (e_face (m_elem m i) k) = d_ldg s' (e_face (m_elem m i) k)) by (intros k FI; specialize (E _ (places_face m size positive ghosts F i k FI)); cbn in E; injection E; auto).
    assert (A4 : forall k, (k < 2 * nd)%nat -> d_ldg t (e_face (m_elem m i) k) = d_ldg t' (e_face (m_elem m i) k)) by (intros k FI; specialize (E' _ (places_face m size positive ghosts F i k FI)); cbn in E'; injection E'; auto).
    destruct A1 as [A1 A1'], A2 as [A2 A2']. destruct H as (H1 & H2 & H3).
    + split; [rewrite A1; exact B1|]. split; [intros k K v q V Q; rewrite (proj1 (A3 k K)); now apply B2|intros k K; rewrite (proj2 (A3 k K)); now apply B3].
    + unfold visc_after. rewrite <- A1, <- A2, <- A2'. split; [exact H1|]. split; [exact H2|]. intros k K. rewrite <- A4 by exact K. now apply H3.
  - exact (places_nodup m size positive ghosts F).
  - intros i I. now apply X2, BF.
Qed.
Definition rec_before (i : nat) (x : data) : Prop := filled n (rs ^ nd) u (d_state x i) /\ (forall k, (k < 2 * nd)%nat -> zeros (n_update eq) nfq (d_ldg x (e_face (m_elem m i) k))).
Definition rec_after (i : nat) (x x' : data) : Prop := d_state x' i = d_state x i /\ d_ref x' i = d_ref x i /\ forall k, (k < 2 * nd)%nat -> filled (n_extrap eq) nfq ue (d_st x' (e_face (m_elem m i) k)).
Lemma elements_reconciled dt (cr uf : bool) x : (forall i, In i (elems m) -> rec_before i x) -> forall i, In i (elems m) -> rec_after i x (run_reconcile m eq dt cr uf (elems m) x).
Proof.
  intros BF. unfold run_reconcile. set (step := fun x i => _).
  assert (EQ : forall x i, step x i = let o := reconcile nd rs eq b dt cr uf (m_elem m i) (d_state x i) (d_ref x i) (gather (m_elem m i) (d_st x)) (gather (m_elem m i) (d_ldg x)) in
     {| d_st := scatter nd (m_elem m i) (snd o) (d_st x); d_ldg := d_ldg x; d_state := fput (d_state x) i (fst (fst o)); d_ref := fput (d_ref x) i (snd (fst o)) |}).
  { intros y i. unfold step, nd, rs, b. cbv zeta. destruct (reconcile _ _ _ _ _ _ _ _ _ _ _ _) as [[st rf] fc]. reflexivity. }
  pose proof (fold_frame place step places (fun i s t => rec_before i s -> rec_after i s t) (elems m)) as X.
  destruct (X) with (s := x) as [_ X2]; clear X.
  - intros i y k I K. destruct (places_out m size positive ghosts F i k K) as [K1 K2]. rewrite EQ. cbv zeta. set (o := reconcile _ _ _ _ _ _ _ _ _ _ _ _). destruct k as [id|j]; cbn [place d_st d_ldg d_state d_ref].
    + rewrite !(scatter_out m) by (intros k KI E; apply (K1 k KI); now rewrite E). reflexivity.
    + rewrite !fput_out by congruence. reflexivity.
  - intros i y I (B1 & B2). rewrite EQ. cbv zeta. set (o := reconcile _ _ _ _ _ _ _ _ _ _ _ _). unfold rec_after. cbn [d_st d_ldg d_state d_ref]. rewrite !fput_in.
    destruct (reconcile_still nd rs eq b (m_elem m i) n u ue f R0 N0 U C A NE dt cr uf (d_state y i) (d_ref y i) (gather (m_elem m i) (d_st y)) (gather (m_elem m i) (d_ldg y)) B1) as (O1 & O2 & O3).
    + intros k K. now apply B2.
    + fold o in O1, O2, O3. split; [exact O1|]. split; [exact O2|]. intros k K. rewrite (scatter_in m size positive ghosts F) by (try apply (face_inj m size positive ghosts F); assumption). now apply O3.
  - intros i s t s' t' I E E' H (B1 & B2).
    assert (A1 : d_state s i = d_state s' i /\ d_ref s i = d_ref s' i) by (specialize (E (inr i) (or_introl eq_refl)); cbn in E; injection E; auto).
    assert (A2 : d_state t i = d_state t' i /\ d_ref t i = d_ref t' i) by (specialize (E' (inr i) (or_introl eq_refl)); cbn in E'; injection E'; auto).
    assert (A3 : forall k, (k < 2 * nd)%nat -> d_ldg s (e_face (m_elem m i) k) = d_ldg s' (e_face (m_elem m i) k)) by (intros k FI; specialize (E _ (places_face m size positive ghosts F i k FI)); cbn in E; injection E; auto).
    assert (A4 : forall k, (k < 2 * nd)%nat -> d_st t (e_face (m_elem m i) k) = d_st t' (e_face (m_elem m i) k)) by (intros k FI; specialize (E' _ (places_face m size positive ghosts F i k FI)); cbn in E'; injection E'; auto).
    destruct A1 as [A1 A1'], A2 as [A2 A2']. destruct H as (H1 & H2 & H3).
    + split; [rewrite A1; exact B1|]. intros k K. rewrite A3 by exact K. now apply B2.
    + unfold rec_after. rewrite <- A1, <- A2, <- A2', <- A1'. split; [exact H1|]. split; [exact H2|]. intros k K. rewrite <- A4 by exact K. now apply H3.
  - exact (places_nodup m size positive ghosts F).
  - intros i I. now apply X2, BF.
Qed.
Let of_inner (P : nat -> Prop) : (forall i k, In i (elems m) -> (k < 2 * nd)%nat -> P (e_face (m_elem m i) k)) -> forall id, In id (inner_faces m) -> P id.
Proof. intros H id I. apply in_flat_map in I as (i & I & J). apply in_map_iff in J as (k & <- & K). apply in_seq in K. apply H; [exact I|fold nd in K; lia]. Qed.

Lemma diffusion_uniform dt (cr uf : bool) junk x : uniform m eq n u ue x ->
  let x' := compute_diffusion m eq dt cr uf flux_bc junk x in
  (forall i, In i (elems m) -> d_state x' i = d_state x i /\ zeros (n_update eq) (rs ^ nd) (d_ref x' i)) /\
  (forall id, In id (inner_faces m) \/ In id (all_mortars m) -> filled (n_extrap eq) nfq ue (d_st x' id)).
Proof.
  intros UN x'. unfold x', compute_diffusion, diffusion_first, diffusion_second. cbv zeta. rewrite run_neighbor_app, run_local_app, run_reconcile_con_app, run_reconcile_app. change (car_cons m ++ def_cons m) with (cons m). change (car_elems m ++ def_elems m) with (elems m).
  set (x1 := run_neighbor m eq (cons m) x). destruct (neighbors_uniform m size positive ghosts eq n u ue f fn F C HC CL x (un_sides _ _ _ _ _ _ UN)) as [_ X1]. fold x1 in X1.
  pose proof (averages_uniform x (un_sides _ _ _ _ _ _ UN)) as Y1. fold x1 in Y1. destruct (run_neighbor_keeps m eq (cons m) x) as [K1 _]. fold x1 in K1.
  set (x2 := run_restrict m eq false true (run_restrict m eq true false x1)).
  set (x3 := run_local m eq dt false cr uf (elems m) x2).
  assert (S3 : forall i, In i (elems m) -> visc_after i x2 x3).
  { apply elements_still. intros i I. split; [change (d_state x2) with (d_state x1); rewrite K1; now apply (un_state _ _ _ _ _ _ UN)|]. split; intros k K.
    - change (d_st x2) with (the_restrict m eq true (d_st x1)). apply (refined_uniform m size positive ghosts eq n u ue f fn F C CL); [exact X1|]. now apply (face_in m size positive ghosts F).
    - change (d_ldg x2) with (the_restrict m eq false (d_ldg x1)). apply restrict_average; [exact Y1|]. now apply (face_in m size positive ghosts F). }
  set (x4 := run_prolong m eq true true x3). change (d_ldg x4) with (the_prolong m eq true (d_ldg x3)). set (x5 := {| d_st := d_st x4; d_ldg := _; d_state := d_state x4; d_ref := d_ref x4 |}).
  assert (Z3 : forall id, In id (inner_faces m) -> zeros (n_update eq) nfq (d_ldg x3 id)) by (apply of_inner; intros i k I K; now apply (S3 i I)).
  assert (Z4 : forall id, In id (inner_faces m) -> zeros (n_update eq) nfq (the_prolong m eq true (d_ldg x3) id)) by (intros id I; rewrite (the_prolong_other m size positive ghosts eq F); [now apply Z3|now apply (inner_mortar m size positive ghosts F)]).
  destruct (IB (the_prolong m eq true (d_ldg x3))) as [G1 G2]. specialize (G2 Z4).
  assert (Z5 : forall id, In id (side_faces (cons m)) -> zeros (n_update eq) nfq (d_ldg x5 id)).
  { intros id I. change (d_ldg x5) with (flux_bc (the_prolong m eq true (d_ldg x3))).
    assert (J : In id (inner_faces m ++ all_mortars m ++ ghosts)) by (apply (Permutation_in _ (fit_matched _ _ _ _ F)), in_or_app; now left).
    destruct (in_dec Nat.eq_dec id ghosts) as [G|G]; [now apply G2|]. rewrite G1 by exact G. apply in_app_or in J as [J|J]; [now apply Z4|]. apply in_app_or in J as [J|J]; [|contradiction].
    apply prolong_zero; [|exact J]. intros id' I'. apply Z3. now apply (coarse_inner m size positive ghosts F). }
  set (x6 := run_neighbor_reconcile m eq junk (cons m) x5). pose proof (sides_zero junk x5 Z5) as Z6. fold x6 in Z6.
  set (x7 := run_restrict m eq true true x6). set (x8 := run_reconcile m eq dt cr uf (elems m) x7).
  assert (S7 : forall i, d_state x7 i = d_state x3 i /\ d_ref x7 i = d_ref x3 i) by (intros; split; reflexivity).
  assert (S2 : forall i, d_state x2 i = d_state x i) by (intros; change (d_state x2) with (d_state x1); now rewrite K1).
  assert (S8 : forall i, In i (elems m) -> rec_after i x7 x8).
  { apply elements_reconciled. intros i I. split.
    - rewrite (proj1 (S7 i)), (proj1 (S3 i I)), S2. now apply (un_state _ _ _ _ _ _ UN).
    - intros k K. change (d_ldg x7) with (the_restrict m eq true (d_ldg x6)). apply restrict_zero; [exact Z6|]. now apply (face_in m size positive ghosts F). }
  split.
  - intros i I. change (d_state (run_prolong m eq false false x8) i) with (d_state x8 i). change (d_ref (run_prolong m eq false false x8) i) with (d_ref x8 i).
    destruct (S8 i I) as (A1 & A2 & _), (S3 i I) as (A3 & A4 & _), (S7 i) as [A5 A6]. split; [now rewrite A1, A5, A3|]. rewrite A2, A6. exact A4.
  - assert (IN : forall id, In id (inner_faces m) -> filled (n_extrap eq) nfq ue (d_st x8 id)) by (apply of_inner; intros i k I K; now apply (S8 i I)).
    change (d_st (run_prolong m eq false false x8)) with (the_prolong m eq false (d_st x8)). intros id [I|I].
    + rewrite (the_prolong_other m size positive ghosts eq F); [now apply IN|]. now apply (inner_mortar m size positive ghosts F).
    + apply (mortars_uniform m size positive ghosts eq ue F U); [|exact I]. intros id' I'. apply IN. now apply (coarse_inner m size positive ghosts F).
Qed.
End Mesh.
