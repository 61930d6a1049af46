(** The averages of neighbouring elements. *)
From Coq Require Import Reals List Arith Lia Lra FunctionalExtensionality.
From Verif Require Import Outcome RSum Tensor_Spec Tensor_Proofs Row_Model Row_Spec Row_Proofs Connection_Model Basis_Model Basis_Spec Basis_Proofs Quad_Model Quad_Spec Quad_Proofs Spatial_Model Spatial_Spec Spatial_Proofs Spatial_Proofs2 Spatial_Proofs3 Spatial_Proofs4 Spatial_Proofs5 Free_Spec Free_Model Free_Proofs1 Free_Proofs2 Jac_Proofs4 Visc_Proofs3 Sweep_Model Sweep_Spec Sweep_Proofs1.
Import ListNotations.
Local Open Scope R_scope.

Lemma fold_fput {A} (g : A -> arr -> arr) (key : A -> nat) l : NoDup (map key l) -> forall (s : nat -> arr),
  (forall a, In a l -> fold_left (fun s a => fput s (key a) (g a (s (key a)))) l s (key a) = g a (s (key a))) /\
  (forall k, ~ In k (map key l) -> fold_left (fun s a => fput s (key a) (g a (s (key a)))) l s k = s k).
Proof.
  induction l as [|a l IH]; intros ND s; [split; [intros a []|reflexivity]|]. cbn [map fold_left] in *. inversion ND as [|? ? NI ND']; subst. destruct (IH ND' (fput s (key a) (g a (s (key a))))) as [I1 I2]. split.
  - intros b [<-|B]; [rewrite I2 by exact NI; now rewrite fput_in|]. rewrite I1 by exact B. rewrite fput_out; [reflexivity|]. intros E. apply NI. rewrite <- E. now apply in_map.
  - intros k K. rewrite I2 by (intros J; apply K; now right). rewrite fput_out; [reflexivity|]. intros ->. apply K. now left.
Qed.
Lemma copy_bcs_in bcs : NoDup (map snd bcs) -> (forall i g, In (i, g) bcs -> ~ In i (map snd bcs)) -> forall st i g, In (i, g) bcs -> copy_bcs bcs st g = st i.
Proof.
  intros ND OUT st i g J. unfold copy_bcs. revert st. assert (K : forall l st k, ~ In k (map snd l) -> fold_left (fun (s : nat -> arr) '(inside, ghost) => fput s ghost (s inside)) l st k = st k).
  { induction l as [|[a b] l IH]; intros st k H; [reflexivity|]. cbn [fold_left]. rewrite IH by (intros F; apply H; now right). apply fput_out. intros ->. apply H. now left. }
  induction bcs as [|[a b] l IH]; intros st; [destruct J|]. cbn [fold_left map snd] in *. inversion ND as [|? ? NI ND']; subst. destruct J as [E|J].
  - injection E as <- <-. rewrite K by exact NI. now rewrite fput_in.
  - rewrite IH; [|exact ND'|intros i' g' J' F; apply (OUT i' g'); now right|exact J]. apply fput_out. intros ->. apply (OUT b g); [now right|now left].
Qed.
Lemma copy_bcs_out bcs st k : ~ In k (map snd bcs) -> copy_bcs bcs st k = st k.
Proof.
  unfold copy_bcs. revert st. induction bcs as [|[a b] l IH]; intros st H; [reflexivity|]. cbn [fold_left]. rewrite IH by (intros F; apply H; now right). apply fput_out. intros ->. apply H. now left.
Qed.
Lemma double_coarse_st nfq hang x k : ~ In k (side_faces hang) -> d_st (double_coarse nfq hang x) k = d_st x k.
Proof.
  unfold double_coarse. revert x. induction hang as [|c l IH]; intros x H; [reflexivity|]. cbn [fold_left side_faces flat_map] in *. rewrite IH by (intros F; apply H; apply in_or_app; now right). cbn [d_st]. apply fput_out. intros ->. apply H. apply in_or_app. left. now left.
Qed.
Lemma double_coarse_state nfq hang x : d_state (double_coarse nfq hang x) = d_state x /\ d_ref (double_coarse nfq hang x) = d_ref x.
Proof. unfold double_coarse. revert x. induction hang as [|c l IH]; intros x; [now split|]. cbn [fold_left]. destruct (IH {| d_st := fput (d_st x) (c_face c false) (fun k => if (k <? nfq)%nat then d_st x (c_face c false) k * 2 else d_st x (c_face c false) k);
    d_ldg := fput (d_ldg x) (c_face c true) (fun k => if (k <? nfq)%nat then 0 else d_ldg x (c_face c true) k); d_state := d_state x; d_ref := d_ref x |}) as [A B]. split; [exact A|exact B]. Qed.
Lemma double_coarse_in nfq hang x c k : NoDup (map (fun c => c_face c false) hang) -> In c hang -> (k < nfq)%nat -> d_st (double_coarse nfq hang x) (c_face c false) k = d_st x (c_face c false) k * 2.
Proof.
  intros ND I K. assert (E : d_st (double_coarse nfq hang x) = fold_left (fun s c => fput s (c_face c false) (fun k => if (k <? nfq)%nat then s (c_face c false) k * 2 else s (c_face c false) k)) hang (d_st x)).
  { clear. unfold double_coarse. revert x. induction hang as [|c l IH]; intros x; [reflexivity|]. cbn [fold_left]. now rewrite IH. }
  rewrite E. destruct (fold_fput (fun c a k => if (k <? nfq)%nat then a k * 2 else a k) (fun c => c_face c false) hang ND (d_st x)) as [F _]. rewrite F by exact I. apply Nat.ltb_lt in K. now rewrite K.
Qed.
Lemma double_coarse_out nfq hang x k : ~ In k (map (fun c => c_face c false) hang) -> d_st (double_coarse nfq hang x) k = d_st x k.
Proof. unfold double_coarse. revert x. induction hang as [|c l IH]; intros x H; [reflexivity|]. cbn [fold_left map] in *. rewrite IH by (intros F; apply H; now right). cbn [d_st]. apply fput_out. intros ->. apply H. now left. Qed.
Lemma run_write_face_keeps m eq l x : d_state (run_write_face m eq l x) = d_state x /\ d_ref (run_write_face m eq l x) = d_ref x /\ d_ldg (run_write_face m eq l x) = d_ldg x.
Proof. unfold run_write_face. revert x. induction l as [|i l IH]; intros x; [repeat split|]. cbn [fold_left]. destruct (IH {| d_st := scatter (m_dim m) (m_elem m i) (write_face (m_dim m) (m_row_size m) eq (m_basis m) (d_state x i) (gather (m_elem m i) (d_st x))) (d_st x); d_ldg := d_ldg x; d_state := d_state x; d_ref := d_ref x |}) as (A & B & C). repeat split; assumption. Qed.
Lemma plain_sides l : side_faces (map plain l) = side_faces l. Proof. unfold side_faces. induction l as [|c l IH]; [reflexivity|]. cbn. now rewrite IH. Qed.

Lemma scatter_in' n e faces s f : (forall k l, (k < 2 * n)%nat -> (l < 2 * n)%nat -> e_face e k = e_face e l -> k = l) -> (f < 2 * n)%nat -> scatter n e faces s (e_face e f) = faces f.
Proof.
  intros J FI. unfold scatter. apply (loop_inv (fun n t => (f < n)%nat -> t (e_face e f) = faces f)); [lia| |exact FI]. intros i t I H L. destruct (Nat.eq_dec f i) as [->|NE]; [now rewrite fput_in|]. rewrite fput_out; [apply H; lia|]. intros E. apply J in E; lia.
Qed.
Lemma run_average m l x c side f : (0 < m_row_size m)%nat -> NoDup (side_faces l) -> In c l -> (f < m_row_size m ^ (m_dim m - 1))%nat ->
  d_ldg (run_neighbor m smooth_art_visc (map plain l) x) (c_face c side) f = 1 / 2 * (d_st x (c_face c false) f + d_st x (c_face c true) f).
Proof.
  intros RS ND I F. unfold run_neighbor. set (step := fun s c => neighbor (m_dim m) (m_row_size m) smooth_art_visc c s). set (nfq := (m_row_size m ^ (m_dim m - 1))%nat) in *.
  assert (AP : forall c, In c (map plain l) -> c_face c false <> c_face c true).
  { intros c' I' E. rewrite <- plain_sides in ND. unfold side_faces in ND. apply (flat_nodup _ _ c') in ND; [|exact I']. inversion ND as [|? ? NI _]; subst. apply NI. rewrite E. now left. }
  assert (PL : forall c, In c (map plain l) -> c_deformed c = false) by (intros c' I'; apply in_map_iff in I' as (c0 & <- & _); reflexivity).
  assert (SI : forall (c : con) sd, In (c_face c sd) [c_face c false; c_face c true]) by (intros c' []; [right; now left|now left]).
  pose (get := fun (s : (nat -> arr) * (nat -> arr)) (k : nat) => (fst s k, snd s k)).
  pose (Q := fun (c : con) (s t : (nat -> arr) * (nat -> arr)) => forall sd, snd t (c_face c sd) f = 1 / 2 * (fst s (c_face c false) f + fst s (c_face c true) f)).
  pose proof (fold_frame get step (fun c => [c_face c false; c_face c true]) Q (map plain l)) as X.
  destruct (X) with (s := (d_st x, d_ldg x)) as [_ X2]; clear X.
  - intros c' [st ldg] k J K. unfold get, step. destruct (neighbor_spec (m_dim m) (m_row_size m) smooth_art_visc c' st ldg RS (AP c' J)) as [O _ _ _ _ _ _]. destruct (O k) as [O1 O2]; [intros ->; apply K; now left|intros ->; apply K; right; now left|]. cbn [fst snd]. now rewrite O1, O2.
  - intros c' [st ldg] J sd. unfold step. destruct (neighbor_spec (m_dim m) (m_row_size m) smooth_art_visc c' st ldg RS (AP c' J)) as [_ _ _ _ _ L0 L1]. specialize (L0 eq_refl 0%nat f ltac:(cbn; lia) F). specialize (L1 eq_refl). destruct L1 as (a & E1 & E2). specialize (E2 0%nat f ltac:(cbn; lia) F). rewrite Nat.mul_0_l, Nat.add_0_l in L0, E2.
    assert (FA : facing (m_dim m) (m_row_size m) smooth_art_visc c' st f = st (c_face c' true) f).
    { unfold facing, take_vars. rewrite (PL c' J). fold nfq. destruct (Nat.ltb_spec f (n_extrap smooth_art_visc * nfq)); [reflexivity|]. cbn [n_extrap smooth_art_visc] in *. lia. }
    rewrite FA in L0, E2. destruct sd; cbn [fst]; [|exact L0]. rewrite E1. unfold given_back. rewrite (PL c' J). fold nfq. destruct (Nat.ltb_spec f (n_extrap smooth_art_visc * nfq)); [exact E2|]. cbn [n_extrap smooth_art_visc] in *. lia.
  - intros c' s t s' t' J E E' H sd. specialize (H sd). pose proof (E' _ (SI c' sd)) as E1. pose proof (E _ (SI c' false)) as E2. pose proof (E _ (SI c' true)) as E3. unfold get in E1, E2, E3. injection E1 as _ E1. injection E2 as E2 _. injection E3 as E3 _. now rewrite <- E1, <- E2, <- E3.
  - change (NoDup (side_faces (map plain l))). now rewrite plain_sides.
  - destruct (fold_left step (map plain l) (d_st x, d_ldg x)) as [st ldg] eqn:ES. cbn [d_ldg]. exact (X2 (plain c) (in_map plain l c I) side).
Qed.
Lemma prolong_keeps m eq scl off x : d_state (run_prolong m eq scl off x) = d_state x /\ d_ref (run_prolong m eq scl off x) = d_ref x. Proof. unfold run_prolong. destruct off; now split. Qed.
Lemma prolong_other m eq scl x id : ~ In id (all_mortars m) -> d_st (run_prolong m eq scl false x) id = d_st x id.
Proof.
  intros H. cbn [run_prolong d_st]. generalize (d_st x). unfold all_mortars in H. revert H. induction (ref_faces m) as [|r l IH]; intros H s; [reflexivity|]. cbn [fold_left flat_map] in *. rewrite IH by (intros K; apply H, in_or_app; now right).
  apply prolong_refined_other. intros k K ->. apply H, in_or_app. left. apply in_map, in_seq. lia.
Qed.
Lemma restrict_keeps m eq scl off x : d_state (run_restrict m eq scl off x) = d_state x /\ d_ref (run_restrict m eq scl off x) = d_ref x. Proof. unfold run_restrict. destruct off; now split. Qed.
Lemma restrict_other m eq scl x id : ~ In id (all_mortars m) -> ~ In id (coarse_faces m) -> d_ldg (run_restrict m eq scl true x) id = d_ldg x id.
Proof.
  intros H G. cbn [run_restrict d_ldg]. generalize (d_ldg x). unfold all_mortars in H. unfold coarse_faces in G. revert H G. induction (ref_faces m) as [|r l IH]; intros H G s; [reflexivity|]. cbn [fold_left flat_map map] in *. rewrite IH by ((intros K; apply H, in_or_app; now right) || (intros K; apply G; now right)).
  apply restrict_refined_other; [intros ->; apply G; now left|]. intros k K ->. apply H, in_or_app. left. apply in_map, in_seq. lia.
Qed.
Lemma neighbor_keeps m eq l x : d_state (run_neighbor m eq l x) = d_state x /\ d_ref (run_neighbor m eq l x) = d_ref x. Proof. unfold run_neighbor. destruct (fold_left _ l _). now split. Qed.

Section Mesh.
Variables (m : mesh) (bcs : list (nat * nat)) (walls : list wall) (hang : list con) (node w : nat -> R) (ratio : R).
Hypothesis T : tidy m bcs walls.
Local Notation nd := (m_dim m).
Local Notation rs := (m_row_size m).
Local Notation nfq := (rs ^ (nd - 1))%nat.
Hypothesis B : m_basis m = basis_on rs node w ratio.
Let RS : (0 < rs)%nat. Proof. pose proof (ti_rows _ _ _ T). lia. Qed.
Let N : (0 < nd)%nat. Proof. pose proof (ti_dim _ _ _ T). lia. Qed.

(** what [fill_wall] and [write_face] make of the adjustments *)
Definition filled_state (adj : nat -> arr) (wl : wall) (q : nat) : R := msign (w_sign wl) * adj (w_elem wl) (wall_offset nd rs wl + foot nd rs (w_dim wl) q)%nat.
Definition at_edge (adj : nat -> arr) (g : edge) (f : nat) : R := rsum rs (fun j => py_interpolate rs node j (INR (g_sign g)) * filled_state adj (g_wall g) (i_qpoint (nth_row nd rs (g_dim g) f) j)).

Let distinct_faces := ti_distinct _ _ _ T.
Lemma edge_inner g : is_edge nd walls g -> In (edge_face m g) (inner_faces m).
Proof. intros (W & D & _ & S). unfold edge_face, inner_faces. apply in_flat_map. exists (w_elem (g_wall g)). split; [apply (ti_wall _ _ _ T), W|]. unfold faces_of. apply in_map, in_seq. lia. Qed.
Lemma inner_out i : In i (inner_faces m) -> ~ In i (all_mortars m) /\ ~ In i (map snd bcs).
Proof. intros I. pose proof (app_apart _ _ i distinct_faces I) as H. split; intros F; apply H, in_or_app; [now left|now right]. Qed.
Lemma elem_inj i : In i (elems m) -> forall k l, (k < 2 * nd)%nat -> (l < 2 * nd)%nat -> e_face (m_elem m i) k = e_face (m_elem m i) l -> k = l.
Proof. intros I. pose proof (nodup_app_left _ _ distinct_faces) as ND. unfold inner_faces in ND. apply (flat_nodup _ _ i) in ND; [|exact I]. unfold faces_of in ND. apply nodup_map_inj. exact ND. Qed.

Lemma write_faces_at eq x i k : In i (elems m) -> (k < 2 * nd)%nat -> exists y, d_st (run_write_face m eq (elems m) x) (e_face (m_elem m i) k) = write_face nd rs eq (m_basis m) (d_state x i) (gather (m_elem m i) y) k.
Proof.
  intros I K. unfold run_write_face. set (step := fun x i => _). pose proof (nodup_app_left _ _ distinct_faces) as ND. unfold inner_faces in ND.
  pose (touch := fun i => faces_of nd (m_elem m i)).
  assert (OUT : forall l y id, ~ In id (flat_map touch l) -> d_st (fold_left step l y) id = d_st y id).
  { induction l as [|i0 l IH]; intros y id O; [reflexivity|]. cbn [fold_left flat_map] in *. rewrite IH by (intros J; apply O, in_or_app; now right). unfold step. cbn [d_st]. apply (scatter_out m). intros k0 KK ->. apply O, in_or_app. left. apply in_map, in_seq. lia. }
  assert (G : forall l y, incl l (elems m) -> NoDup (flat_map touch l) -> d_state y = d_state x -> In i l -> exists z, d_st (fold_left step l y) (e_face (m_elem m i) k) = write_face nd rs eq (m_basis m) (d_state x i) (gather (m_elem m i) z) k).
  { induction l as [|i0 l IH]; intros y IN NDl SY J; [destruct J|]. cbn [fold_left flat_map] in *. destruct J as [->|J].
    - rewrite OUT. 2:{ apply (app_apart _ _ _ NDl). apply in_map, in_seq. lia. }
      unfold step. cbn [d_st]. exists (d_st y). rewrite scatter_in' by (try apply elem_inj; assumption). now rewrite SY.
    - apply IH; try assumption; [intros z Z; apply IN; now right|now apply nodup_app_right in NDl]. }
  apply (G (elems m) x); [apply incl_refl|exact ND|reflexivity|exact I].
Qed.

Section Average.
Variables (i_sweep : nat) (adj : nat -> arr) (x : data).
Let x1 := with_state x (fold_left (fun s i => fput s i (zero_state nd rs (s i))) (elems m) (d_state x)).
Let x2 := with_state x1 (fold_left (fun s w => fput s (w_elem w) (fill_wall nd rs w (adj (w_elem w)) (s (w_elem w)))) walls (d_state x1)).
Let x3 := run_write_face m (euler nd) (elems m) x2.
Let x4 := run_prolong m (euler nd) false false x3.
Let x5 := {| d_st := copy_bcs bcs (d_st x4); d_ldg := copy_bcs bcs (d_ldg x4); d_state := d_state x4; d_ref := d_ref x4 |}.
Let x6 := if (i_sweep =? 0)%nat then x5 else double_coarse (rs ^ nd / rs) hang x5.
Let x7 := run_neighbor m smooth_art_visc (map plain (def_cons m)) x6.
Let x8 := run_restrict m (euler nd) false true x7.
Let average_is : average m hang bcs walls i_sweep adj x = x8. Proof. reflexivity. Qed.
Let keeps : d_state x8 = d_state x2 /\ d_ref x8 = d_ref x.
Proof.
  unfold x8. destruct (restrict_keeps m (euler nd) false true x7) as [-> ->]. unfold x7. destruct (neighbor_keeps m smooth_art_visc (map plain (def_cons m)) x6) as [-> ->].
  assert (E : d_state x6 = d_state x5 /\ d_ref x6 = d_ref x5) by (unfold x6; destruct (i_sweep =? 0)%nat; [now split|apply double_coarse_state]). destruct E as [-> ->]. cbn [x5 d_state d_ref]. unfold x4. destruct (prolong_keeps m (euler nd) false false x3) as [-> ->]. unfold x3. destruct (run_write_face_keeps m (euler nd) (elems m) x2) as (-> & -> & _). now split.
Qed.
Let filled_at wl q : In wl walls -> (q < rs ^ nd)%nat -> d_state x2 (w_elem wl) q = filled_state adj wl q.
Proof.
  intros W Q. cbn [x2 with_state d_state]. destruct (fold_fput (fun w => fill_wall nd rs w (adj (w_elem w))) w_elem walls (ti_walls _ _ _ T) (d_state x1)) as [E _]. rewrite E by exact W. destruct (ti_wall _ _ _ T wl W) as (_ & D & _). rewrite fill_wall_is by assumption. apply Nat.ltb_lt in Q. now rewrite Q.
Qed.
Lemma average_ref : d_ref (average m hang bcs walls i_sweep adj x) = d_ref x. Proof. rewrite average_is. apply keeps. Qed.
Lemma average_state wl q : In wl walls -> (q < rs ^ nd)%nat -> d_state (average m hang bcs walls i_sweep adj x) (w_elem wl) q = filled_state adj wl q.
Proof. rewrite average_is, (proj1 keeps). apply filled_at. Qed.
Lemma average_beyond i k : (~ In i (elems m) \/ ((nd + 2) * rs ^ nd <= k)%nat) -> d_state (average m hang bcs walls i_sweep adj x) i k = d_state x i k.
Proof.
  intros H. rewrite average_is, (proj1 keeps). cbn [x2 with_state d_state]. destruct (fold_fput (fun w => fill_wall nd rs w (adj (w_elem w))) w_elem walls (ti_walls _ _ _ T) (d_state x1)) as [E1 E2].
  assert (Z : d_state x1 i k = d_state x i k).
  { cbn [x1 with_state d_state]. destruct (fold_fput (fun _ => zero_state nd rs) (fun i => i) (elems m)) with (s := d_state x) as [F1 F2]; [rewrite map_id; apply (ti_elems _ _ _ T)|]. rewrite map_id in F2. destruct (in_dec Nat.eq_dec i (elems m)) as [I|I].
    - rewrite F1 by exact I. unfold zero_state. destruct (Nat.ltb_spec k ((nd + 2) * rs ^ nd)); [|reflexivity]. destruct H; [contradiction|lia].
    - now rewrite F2. }
  destruct (in_dec Nat.eq_dec i (map w_elem walls)) as [I|I]; [|now rewrite E2]. apply in_map_iff in I as (wl & <- & W). rewrite E1 by exact W. destruct (ti_wall _ _ _ T wl W) as (WE & D & _). rewrite fill_wall_is by assumption.
  destruct (Nat.ltb_spec k (rs ^ nd)); [|exact Z]. destruct H as [H|H]; [contradiction|]. nia.
Qed.
Let edge_st g f : is_edge nd walls g -> (f < nfq)%nat -> d_st x5 (edge_face m g) f = at_edge adj g f.
Proof.
  intros G F. pose proof (edge_inner g G) as I. destruct (inner_out _ I) as [M GH]. cbn [x5 d_st]. rewrite copy_bcs_out by exact GH. unfold x4. rewrite prolong_other by exact M. destruct G as (W & D & _ & S). unfold edge_face.
  destruct (ti_wall _ _ _ T _ W) as (WE & WD & _). destruct (write_faces_at (euler nd) x2 (w_elem (g_wall g)) (2 * g_dim g + g_sign g) WE ltac:(lia)) as (y & E). unfold x3. rewrite E.
  pose proof (write_face_value nd rs (euler nd) (m_basis m) (d_state x2 (w_elem (g_wall g))) (gather (m_elem m (w_elem (g_wall g))) y) (g_dim g) (g_sign g) 0 f RS D S ltac:(cbn; lia) F) as V. rewrite Nat.mul_0_l, Nat.add_0_l in V. rewrite V. unfold at_edge. apply rsum_ext. intros j J. rewrite B. cbn [b_boundary basis_on]. f_equal.
  cbn [fetch_extrap euler]. unfold at_point. rewrite Nat.mul_0_l, Nat.add_0_l. apply filled_at; [exact W|]. now apply qpoint_lt.
Qed.
Let average_of g : is_edge nd walls g -> forall c side f, In c (def_cons m) -> (forall sd, ~ In (c_face c sd) (side_faces hang)) -> c_face c side = edge_face m g -> (f < nfq)%nat ->
  d_ldg x8 (edge_face m g) f = 1 / 2 * (d_st x5 (c_face c false) f + d_st x5 (c_face c true) f).
Proof.
  intros G c side f C H E F. destruct (inner_out _ (edge_inner g G)) as [M _]. unfold x8. rewrite restrict_other; [|exact M|].
  - unfold x7. rewrite <- E. rewrite run_average; [|exact RS|exact (nodup_app_left _ _ (ti_sides _ _ _ T))|exact C|exact F]. unfold x6. destruct (i_sweep =? 0)%nat; [reflexivity|]. now rewrite !double_coarse_st by apply H.
  - rewrite <- E. apply (app_apart _ _ _ (ti_sides _ _ _ T)). unfold side_faces. apply in_flat_map. exists c. split; [exact C|]. destruct side; [right; now left|now left].
Qed.
Lemma average_linked g h f : is_edge nd walls g -> is_edge nd walls h -> linked m hang (edge_face m g) (edge_face m h) -> (f < nfq)%nat ->
  d_ldg (average m hang bcs walls i_sweep adj x) (edge_face m g) f = 1 / 2 * (at_edge adj g f + at_edge adj h f).
Proof.
  intros G H (c & C & NH & L) F. rewrite average_is. destruct L as [[L1 L2]|[L1 L2]].
  - rewrite (average_of g G c false f C NH L1 F), L1, L2. now rewrite !edge_st.
  - rewrite (average_of g G c true f C NH L2 F), L1, L2. rewrite !edge_st by assumption. ring.
Qed.
Lemma average_bounded g f : is_edge nd walls g -> bounded m bcs hang g -> (f < nfq)%nat -> d_ldg (average m hang bcs walls i_sweep adj x) (edge_face m g) f = at_edge adj g f.
Proof.
  intros G (gh & IB & (c & C & NH & L)) F. rewrite average_is.
  assert (GH : d_st x5 gh = d_st x4 (edge_face m g)).
  { cbn [x5 d_st]. apply copy_bcs_in; [pose proof distinct_faces as ND; apply nodup_app_right in ND; now apply nodup_app_right in ND| |exact IB].
    intros i' g' J. apply inner_out. apply (ti_inside _ _ _ T). change i' with (fst (i', g')). now apply in_map. }
  assert (GE : d_st x5 gh f = d_st x5 (edge_face m g) f).
  { rewrite GH. cbn [x5 d_st]. rewrite copy_bcs_out; [reflexivity|]. now apply inner_out, edge_inner. }
  destruct L as [[L1 L2]|[L1 L2]].
  - rewrite (average_of g G c false f C NH L1 F), L1, L2, GE. rewrite !edge_st by assumption. field.
  - rewrite (average_of g G c true f C NH L2 F), L1, L2, GE. rewrite !edge_st by assumption. field.
Qed.

(** a coarse face, with one value all over *)
Variables (r : refined_face) (g : edge) (a : R).
Hypotheses (RF : ref_faces m = [r]) (RC : r_coarse r = edge_face m g) (G : is_edge nd walls g) (AG : forall f, (f < nfq)%nat -> at_edge adj g f = a).
Let mortar k : (k < n_fine nd (r_stretch r))%nat -> In (r_fine r k) (all_mortars m).
Proof. intros K. unfold all_mortars. rewrite RF. cbn [flat_map]. rewrite app_nil_r. unfold mortars. apply in_map, in_seq. lia. Qed.
Let apart k : (k < n_fine nd (r_stretch r))%nat -> r_coarse r <> r_fine r k.
Proof. intros K E. apply (proj1 (inner_out _ (edge_inner g G))). rewrite <- RC, E. now apply mortar. Qed.
Let coarse_filled : filled (n_extrap (euler nd)) nfq (fun v => if (v =? 0)%nat then a else 0) (d_st x3 (r_coarse r)).
Proof.
  intros v f V F. destruct (Nat.eqb_spec v 0) as [->|NV].
  - rewrite Nat.mul_0_l, Nat.add_0_l, RC. rewrite <- (AG f F), <- (edge_st g f G F). destruct (inner_out _ (edge_inner g G)) as [M GH]. cbn [x5 d_st]. rewrite copy_bcs_out by exact GH. unfold x4. now rewrite prolong_other by exact M.
  - rewrite RC. pose proof G as (W & D & _ & S). unfold edge_face. destruct (ti_wall _ _ _ T _ W) as (WE & WD & _). destruct (write_faces_at (euler nd) x2 (w_elem (g_wall g)) (2 * g_dim g + g_sign g) WE ltac:(lia)) as (y & E). unfold x3. rewrite E. cbn [n_extrap euler] in V.
    rewrite write_face_value by assumption. rewrite (rsum_ext rs _ (fun _ => 0)); [apply rsum_0|]. intros j J. cbn [fetch_extrap euler]. unfold at_point.
    set (q := i_qpoint (nth_row nd rs (g_dim g) f) j). assert (Q : (q < rs ^ nd)%nat) by now apply qpoint_lt. replace (d_state x2 (w_elem (g_wall g)) (v * rs ^ nd + q)%nat) with 0; [ring|].
    cbn [x2 with_state d_state]. destruct (fold_fput (fun w => fill_wall nd rs w (adj (w_elem w))) w_elem walls (ti_walls _ _ _ T) (d_state x1)) as [E1 _]. rewrite E1 by exact W. rewrite fill_wall_is by assumption. destruct (Nat.ltb_spec (v * rs ^ nd + q) (rs ^ nd)) as [LT|GE]; [nia|].
    cbn [x1 with_state d_state]. destruct (fold_fput (fun _ => zero_state nd rs) (fun i => i) (elems m)) with (s := d_state x) as [F1 _]; [rewrite map_id; apply (ti_elems _ _ _ T)|]. rewrite F1 by exact WE. unfold zero_state. destruct (Nat.ltb_spec (v * rs ^ nd + q) ((nd + 2) * rs ^ nd)) as [LT|GE']; [reflexivity|nia].
Qed.
Hypothesis DI : distinct rs node.
Let mortar_st k f : (k < n_fine nd (r_stretch r))%nat -> (f < nfq)%nat -> d_st x5 (r_fine r k) f = a.
Proof.
  intros K F. cbn [x5 d_st]. rewrite copy_bcs_out.
  2:{ pose proof distinct_faces as ND. apply nodup_app_right in ND. apply (app_apart _ _ _ ND). now apply mortar. }
  unfold x4. cbn [run_prolong d_st]. rewrite RF. cbn [fold_left]. assert (U : unital rs (m_basis m)) by (rewrite B; now apply basis_unital).
  pose proof (prolong_refined_const nd rs (n_extrap (euler nd)) (m_basis m) (r_coarse r) (r_fine r) (r_stretch r) (d_st x3) _ RS U apart coarse_filled k K 0%nat f ltac:(cbn; lia) F) as H. rewrite Nat.mul_0_l, Nat.add_0_l in H. exact H.
Qed.
Variables (c : con) (k : nat) (h : edge).
Hypotheses (C : In c (def_cons m)) (K : (k < n_fine nd (r_stretch r))%nat) (CM : c_face c false = r_fine r k) (CE : c_face c true = edge_face m h) (H : is_edge nd walls h).
Let side_ldg side f : (f < nfq)%nat -> d_ldg x7 (c_face c side) f = 1 / 2 * (d_st x6 (c_face c false) f + d_st x6 (c_face c true) f).
Proof. intros F. unfold x7. apply run_average; [exact RS|exact (nodup_app_left _ _ (ti_sides _ _ _ T))|exact C|exact F]. Qed.
Lemma hanging_first f : i_sweep = 0%nat -> (f < nfq)%nat -> d_ldg (average m hang bcs walls i_sweep adj x) (edge_face m h) f = (a + at_edge adj h f) / 2 /\ d_ldg x7 (r_fine r k) f = (a + at_edge adj h f) / 2.
Proof.
  intros Z F. assert (E : 1 / 2 * (d_st x6 (c_face c false) f + d_st x6 (c_face c true) f) = (a + at_edge adj h f) / 2).
  { unfold x6. rewrite Z. cbn [Nat.eqb]. rewrite CM, CE, mortar_st, edge_st by assumption. field. }
  split; [|rewrite <- CM, side_ldg by exact F; exact E]. rewrite average_is. destruct (inner_out _ (edge_inner h H)) as [M _]. unfold x8. rewrite restrict_other; [|exact M|].
  - rewrite <- CE, side_ldg by exact F. exact E.
  - rewrite <- CE. apply (app_apart _ _ _ (ti_sides _ _ _ T)). unfold side_faces. apply in_flat_map. exists c. split; [exact C|right; now left].
Qed.
Lemma hanging_later f : i_sweep <> 0%nat -> NoDup (map (fun c => c_face c false) hang) -> In c hang -> ~ In (edge_face m h) (map (fun c => c_face c false) hang) -> (f < nfq)%nat ->
  d_ldg (average m hang bcs walls i_sweep adj x) (edge_face m h) f = a + at_edge adj h f / 2.
Proof.
  intros Z ND IH NH F. assert (E : 1 / 2 * (d_st x6 (c_face c false) f + d_st x6 (c_face c true) f) = a + at_edge adj h f / 2).
  { unfold x6. apply Nat.eqb_neq in Z. rewrite Z. rewrite double_coarse_in; [|exact ND|exact IH|]. 2:{ replace nd with (S (nd - 1)) at 1 by (pose proof N; lia). rewrite Nat.pow_succ_r', (Nat.mul_comm rs), Nat.div_mul by lia. exact F. }
    rewrite double_coarse_out by (rewrite CE; exact NH). rewrite CM, CE, mortar_st, edge_st by assumption. field. }
  rewrite average_is. destruct (inner_out _ (edge_inner h H)) as [M _]. unfold x8. rewrite restrict_other; [|exact M|].
  - rewrite <- CE, side_ldg by exact F. exact E.
  - rewrite <- CE. apply (app_apart _ _ _ (ti_sides _ _ _ T)). unfold side_faces. apply in_flat_map. exists c. split; [exact C|right; now left].
Qed.
End Average.
Section Coarse.
Variables (adj : nat -> arr) (x : data) (r : refined_face) (g : edge) (a : R) (hc : nat -> con) (he : nat -> edge).
Hypotheses (RF : ref_faces m = [r]) (RC : r_coarse r = edge_face m g) (G : is_edge nd walls g) (AG : forall f, (f < nfq)%nat -> at_edge adj g f = a) (LB : as_lobatto rs node w).
Hypothesis HC : forall k, (k < n_fine nd (r_stretch r))%nat -> In (hc k) (def_cons m) /\ c_face (hc k) false = r_fine r k /\ c_face (hc k) true = edge_face m (he k) /\ is_edge nd walls (he k) /\ forall f, (f < nfq)%nat -> at_edge adj (he k) f = a.
Lemma hanging_coarse f : (f < nfq)%nat -> d_ldg (average m hang bcs walls 0 adj x) (edge_face m g) f = a.
Proof.
  intros F. unfold average. cbv zeta. cbn [Nat.eqb]. match goal with |- d_ldg (run_restrict m (euler nd) false true ?y) _ _ = _ => set (x7 := y) end. cbn [run_restrict d_ldg]. rewrite RF. cbn [fold_left]. rewrite <- RC.
  assert (V : forall k p, (k < n_fine nd (r_stretch r))%nat -> (p < nfq)%nat -> d_ldg x7 (r_fine r k) p = a).
  { intros k p K P. destruct (HC k K) as (C & CM & CE & H & AH). destruct (hanging_first 0 adj x r g a RF RC G AG (proj1 (proj1 LB)) (hc k) k (he k) C K CM CE H p eq_refl P) as [_ E]. change (d_ldg x7 (r_fine r k) p = (a + at_edge adj (he k) p) / 2) in E. rewrite E, AH by exact P. field. }
  assert (INJ : forall k l, (k < n_fine nd (r_stretch r))%nat -> (l < n_fine nd (r_stretch r))%nat -> r_fine r k = r_fine r l -> k = l).
  { pose proof distinct_faces as ND. apply nodup_app_right, nodup_app_left in ND. unfold all_mortars in ND. rewrite RF in ND. cbn [flat_map] in ND. rewrite app_nil_r in ND. unfold mortars in ND. now apply nodup_map_inj. }
  assert (AP : forall k, (k < n_fine nd (r_stretch r))%nat -> r_coarse r <> r_fine r k).
  { intros k K E. apply (proj1 (inner_out _ (edge_inner g G))). rewrite <- RC, E. unfold all_mortars. rewrite RF. cbn [flat_map]. rewrite app_nil_r. unfold mortars. apply in_map, in_seq. lia. }
  pose proof (restrict_refined_at nd rs (n_extrap (euler nd)) (m_basis m) false (r_coarse r) (r_fine r) (r_stretch r) (d_ldg x7) 0 f RS AP INJ ltac:(cbn; lia) F) as E. rewrite Nat.mul_0_l, Nat.add_0_l in E. rewrite E.
  assert (E1 : (fun x : R => x / (1 + INR (Nat.b2n false))) = (fun x => x * 1)) by (apply functional_extensionality; intros; cbn; field). rewrite E1, B.
  rewrite (rsum_ext _ _ (fun k => face_dims nd rs (r_stretch r) (fun x => x) (b_restrict (basis_on rs node w ratio)) k (fun _ => a) f)); [apply halves_any; try assumption; try reflexivity; [pose proof (ti_dim _ _ _ T); lia|apply (ti_rows _ _ _ T)]|].
  intros k K. pose proof (face_dims_sum nd rs (r_stretch r) 1 (b_restrict (basis_on rs node w ratio)) k 1 (var_of nfq 0 (d_ldg x7 (r_fine r k))) (fun _ _ => a) (fun _ => 1) RS) as H. rewrite H; [|intros p P; unfold var_of; cbn [rsum]; rewrite Nat.mul_0_l, Nat.add_0_l, V by assumption; ring|exact F].
  cbn [rsum]. assert (E2 : (fun x : R => x * 1) = (fun x => x)) by (apply functional_extensionality; intros; ring). rewrite E2. ring.
Qed.
End Coarse.
End Mesh.
