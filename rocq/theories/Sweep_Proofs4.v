(** What a sweep does to adjustments. *)
From Coq Require Import Reals List Arith Lia Lra FunctionalExtensionality.
From Verif Require Import Outcome RSum Tensor_Spec Tensor_Proofs Row_Model Row_Spec Row_Proofs Connection_Model Basis_Model Basis_Spec Basis_Proofs Quad_Model Quad_Spec Quad_Proofs Spatial_Model Spatial_Spec Spatial_Proofs Spatial_Proofs2 Spatial_Proofs3 Spatial_Proofs4 Spatial_Proofs5 Free_Spec Free_Model Free_Proofs1 Jac_Proofs4 Snap_Proofs1 Snap_Proofs2 Sweep_Model Sweep_Spec Sweep_Proofs1 Sweep_Proofs2 Sweep_Proofs3.
From Verif Require Import Snap_Spec.
Import ListNotations.
Local Open Scope R_scope.

(** ** the loop over the walls *)
Lemma fit_walls m node n lob walls : NoDup (map w_elem walls) -> forall adj x, let s := fold_left (fit_step m node n lob) walls (adj, x) in
  d_ldg (snd s) = d_ldg x /\ d_ref (snd s) = d_ref x /\
  (forall w, In w walls -> let state := fit_state (m_dim m) (m_row_size m) n node lob (gather (m_elem m (w_elem w)) (d_ldg x)) (w_dim w) (d_state x (w_elem w)) in
    fst s (w_elem w) = read_wall (m_dim m) (m_row_size m) w state (adj (w_elem w)) /\ d_state (snd s) (w_elem w) = state) /\
  (forall i, ~ In i (map w_elem walls) -> fst s i = adj i /\ d_state (snd s) i = d_state x i).
Proof.
  induction walls as [|w l IH]; intros ND adj x; [split; [reflexivity|split; [reflexivity|split; [intros w []|now split]]]|]. cbn [map fold_left] in *. inversion ND as [|? ? NI ND']; subst. cbn zeta.
  destruct (fit_step m node n lob (adj, x) w) as [adj1 x1] eqn:E. unfold fit_step in E. injection E as E1 E2. destruct (IH ND' adj1 x1) as (A & C & W & O). cbn zeta in A, C, W, O.
  assert (L : d_ldg x1 = d_ldg x) by now rewrite <- E2. rewrite L in A, W. assert (RF : d_ref x1 = d_ref x) by now rewrite <- E2. rewrite RF in C. split; [exact A|split; [exact C|split]].
  - intros w' [<-|W'].
    + destruct (O _ NI) as [-> ->]. rewrite <- E1, <- E2. cbn [with_state d_state]. rewrite !fput_in. now split.
    + assert (NE : w_elem w' <> w_elem w) by (intros F; apply NI; rewrite <- F; now apply in_map). destruct (W w' W') as [-> ->]. rewrite <- E1, <- E2. cbn [with_state d_state]. now rewrite !fput_out by exact NE.
  - intros i I. destruct (O i) as [-> ->]; [intros F; apply I; now right|]. rewrite <- E1, <- E2. cbn [with_state d_state]. rewrite !fput_out by (intros ->; apply I; now left). now split.
Qed.
Lemma sweep_is m node lob hang bcs walls k adj x : sweep m node lob hang bcs walls k (adj, x) = fold_left (fit_step m node (Nat.max 2 (m_row_size m - 1)) (lob (Nat.max 2 (m_row_size m - 1)))) walls (adj, average m hang bcs walls k adj x).
Proof. reflexivity. Qed.
Lemma fit_dim_beyond nd rs n node lob faces j s q : (0 < rs)%nat -> (0 < nd)%nat -> (2 <= n)%nat -> (j < nd)%nat -> (rs ^ nd <= q)%nat -> Sweep_Model.fit_dim nd rs n node lob faces j s q = s q.
Proof. intros R N N2 J Q. rewrite fit_dim_is by assumption. destruct (Nat.ltb_spec q (rs ^ nd)); [lia|reflexivity]. Qed.
Lemma fit_state_beyond nd rs n node lob faces d s q : (0 < rs)%nat -> (0 < nd)%nat -> (2 <= n)%nat -> (rs ^ nd <= q)%nat -> fit_state nd rs n node lob faces d s q = s q.
Proof.
  intros R N N2 Q. unfold fit_state. apply (loop_inv (fun _ a => a q = s q)); [reflexivity|]. intros j a J <-. destruct (j =? d)%nat; [reflexivity|]. now apply fit_dim_beyond.
Qed.

Lemma nodup_key {A} (key : A -> nat) l a b : NoDup (map key l) -> In a l -> In b l -> key b = key a -> a = b.
Proof.
  induction l as [|c l IH]; intros ND; [intros []|]. cbn in ND. inversion ND as [|? ? NI ND2]; subst. intros [->|A1] [->|B1] E; [reflexivity| | |now apply IH].
  - exfalso. apply NI. rewrite <- E. now apply in_map.
  - exfalso. apply NI. rewrite E. now apply in_map.
Qed.

Section Mesh.
Variables (m : mesh) (bcs : list (nat * nat)) (walls : list wall) (hang : list con) (node wt : nat -> R) (ratio : R) (lobs : nat -> nat -> R).
Hypothesis T : tidy m bcs walls.
Local Notation nd := (m_dim m).
Local Notation rs := (m_row_size m).
Local Notation nfq := (rs ^ (nd - 1))%nat.
Local Notation n := (Nat.max 2 (rs - 1)).
Local Notation lob := (lobs n).
Hypotheses (B : m_basis m = basis_on rs node wt ratio) (DI : distinct rs node) (LO : lobatto n lob).
Let RS2 : (2 <= rs)%nat := ti_rows _ _ _ T.
Let RS : (0 < rs)%nat. Proof. lia. Qed.
Let N3 : (2 <= nd <= 3)%nat := ti_dim _ _ _ T.
Let N : (0 < nd)%nat. Proof. lia. Qed.
Let N2 : (2 <= n)%nat. Proof. lia. Qed.
Let DL : distinct n lob. Proof. apply LO. Qed.

Lemma at_edge_moved adj g f : is_edge nd walls g -> (f < nfq)%nat -> at_edge m node adj g f = moved nd rs node adj (g_wall g) (face_point nd rs node (g_dim g) (g_sign g) f).
Proof.
  intros (W & D & NE & S) F. destruct (ti_wall _ _ _ T _ W) as (_ & WD & _). rewrite <- edge_value by assumption. unfold at_edge. apply rsum_ext. intros j J. rewrite py_interpolate_eq by exact J. reflexivity.
Qed.

(** ** states after a sweep *)
Variables (k : nat) (adj : nat -> arr) (x : data).
Let x8 := average m hang bcs walls k adj x.
Let s' := sweep m node lobs hang bcs walls k (adj, x).
Let spec := fit_walls m node n lob walls (ti_walls _ _ _ T) adj x8.
Lemma sweep_ref : d_ref (snd s') = d_ref x. Proof. destruct spec as (_ & R & _). unfold s'. rewrite sweep_is. fold x8. cbn zeta in R. rewrite R. apply average_ref. Qed.
Lemma sweep_beyond i q : (~ In i (elems m) \/ ((nd + 2) * rs ^ nd <= q)%nat) -> d_state (snd s') i q = d_state x i q.
Proof.
  intros H. destruct spec as (_ & _ & W & O). cbn zeta in W, O. rewrite <- (average_beyond m bcs walls hang T k adj x i q H). fold x8. unfold s'. rewrite sweep_is. fold x8.
  destruct (in_dec Nat.eq_dec i (map w_elem walls)) as [I|I]; [|now destruct (O i I) as [_ ->]]. apply in_map_iff in I as (w & <- & I). destruct (W w I) as [_ ->]. apply fit_state_beyond; try assumption.
  destruct H as [H|H]; [exfalso; apply H; now apply (ti_wall _ _ _ T)|]. nia.
Qed.
Definition new_state (w : wall) : arr := fit_state nd rs n node lob (gather (m_elem m (w_elem w)) (d_ldg x8)) (w_dim w) (d_state x8 (w_elem w)).
Lemma sweep_out i q : (forall w f, In w walls -> i = w_elem w -> (f < nfq)%nat -> q <> wall_offset nd rs w + f)%nat -> fst s' i q = adj i q.
Proof.
  intros H. destruct spec as (_ & _ & W & O). cbn zeta in W, O. unfold s'. rewrite sweep_is. fold x8. destruct (in_dec Nat.eq_dec i (map w_elem walls)) as [I|I]; [|now destruct (O i I) as [-> _]].
  apply in_map_iff in I as (w & <- & I). destruct (W w I) as [-> _]. destruct (ti_wall _ _ _ T w I) as (_ & WD & _). apply read_wall_out; [exact RS|exact N|exact WD|]. intros f F. now apply (H w f).
Qed.
Lemma sweep_in w f : In w walls -> (f < nfq)%nat -> fst s' (w_elem w) (wall_offset nd rs w + f)%nat = msign (w_sign w) * new_state w (i_qpoint (nth_row nd rs (w_dim w) f) 0).
Proof.
  intros I F. destruct spec as (_ & _ & W & _). cbn zeta in W. unfold s'. rewrite sweep_is. fold x8. destruct (W w I) as [-> _]. destruct (ti_wall _ _ _ T w I) as (_ & WD & _). now apply read_wall_in.
Qed.
(** moving along a row of the wall's dimension does not change the point of the wall *)
Lemma displaced_new w q : In w walls -> (q < rs ^ nd)%nat -> displaced nd rs w (fst s') q = new_state w (along nd rs (w_dim w) q 0).
Proof.
  intros I Q. destruct (ti_wall _ _ _ T w I) as (_ & WD & _). unfold displaced. rewrite sweep_in by (assumption || now apply foot_lt). rewrite <- Rmult_assoc, msign_sq, Rmult_1_l. now rewrite row_along.
Qed.
Lemma old_state w q : In w walls -> (q < rs ^ nd)%nat -> d_state x8 (w_elem w) q = displaced nd rs w adj q.
Proof. intros I Q. unfold x8. now rewrite (average_state m bcs walls hang T). Qed.

(** ** walls that fit are left as they are *)
Definition settled (g : edge) : Prop := forall f, (f < nfq)%nat -> d_ldg x8 (edge_face m g) f = moved nd rs node adj (g_wall g) (face_point nd rs node (g_dim g) (g_sign g) f).
Lemma fit_same w : In w walls -> smooth nd rs node n lob adj w -> (forall g, is_edge nd walls g -> g_wall g = w -> settled g) -> forall q, (q < rs ^ nd)%nat -> new_state w q = displaced nd rs w adj q.
Proof.
  intros I SM SE. destruct (ti_wall _ _ _ T w I) as (_ & WD & _). unfold new_state, fit_state.
  apply (loop_inv (fun _ a => forall q, (q < rs ^ nd)%nat -> a q = displaced nd rs w adj q)); [intros q Q; now apply old_state|]. intros j a J A q Q. destruct (Nat.eqb_spec j (w_dim w)) as [E|NE]; [now apply A|].
  rewrite fit_dim_is by assumption. apply Nat.ltb_lt in Q as Q'. rewrite Q'. rewrite (displaced_moved nd rs node) by assumption.
  transitivity (moved nd rs node adj w (at_coord (point nd rs node q) j (node (digit rs nd j q)))).
  2:{ apply moved_ext; [exact RS|exact N|exact WD|]. intros c C _. unfold at_coord, point. destruct (Nat.eqb_spec c j) as [->|]; reflexivity. }
  rewrite <- (reproduce n lob (fun t => moved nd rs node adj w (at_coord (point nd rs node q) j t)) _ DL) by (apply (smooth_poly nd rs node RS N n lob); assumption || lia).
  apply rsum_ext. intros l L. f_equal. destruct LO as (_ & L0 & L1).
  assert (EG : forall s, (s < 2)%nat -> gather (m_elem m (w_elem w)) (d_ldg x8) (2 * j + s)%nat (foot nd rs j q) = moved nd rs node adj w (at_coord (point nd rs node q) j (INR s))).
  { intros s S. pose (g := {| g_wall := w; g_dim := j; g_sign := s |}). assert (G : is_edge nd walls g) by (repeat split; assumption). specialize (SE g G eq_refl (foot nd rs j q) ltac:(now apply foot_lt)). unfold gather. unfold edge_face in SE. cbn [g_wall g_dim g_sign g] in SE. rewrite SE.
    apply moved_ext; [exact RS|exact N|exact WD|]. intros c C _. now apply face_point_foot. }
  unfold ends. destruct (Nat.eqb_spec l (n - 1)) as [->|NL1]; [rewrite EG by lia; now rewrite L1|]. destruct (Nat.eqb_spec l 0) as [->|NL0]; [rewrite EG by lia; now rewrite L0|].
  rewrite <- (along_value nd rs node RS N DI adj w j q (lob l)) by assumption. apply rsum_ext. intros i Hi. f_equal. apply A. now apply along_lt.
Qed.
Lemma sweep_same : (forall w, In w walls -> smooth nd rs node n lob adj w) -> (forall g, is_edge nd walls g -> settled g) -> fst s' = adj.
Proof.
  intros SM SE. apply functional_extensionality. intros i. apply functional_extensionality. intros q.
  destruct (in_dec Nat.eq_dec i (map w_elem walls)) as [I|I]; [|apply sweep_out; intros w f W -> _; exfalso; apply I; now apply in_map]. apply in_map_iff in I as (w & <- & W). destruct (ti_wall _ _ _ T w W) as (_ & WD & _).
  destruct (Nat.lt_ge_cases q (wall_offset nd rs w)) as [LT|GE]; [apply sweep_out; intros w' f W' E F; assert (w' = w) by (now apply (nodup_key w_elem walls w' w (ti_walls _ _ _ T))); subst; lia|].
  destruct (Nat.lt_ge_cases q (wall_offset nd rs w + nfq)) as [LT|GE2]; [|apply sweep_out; intros w' f W' E F; assert (w' = w) by (now apply (nodup_key w_elem walls w' w (ti_walls _ _ _ T))); subst; lia].
  replace q with (wall_offset nd rs w + (q - wall_offset nd rs w))%nat by lia. set (f := (q - wall_offset nd rs w)%nat). assert (F : (f < nfq)%nat) by (unfold f; lia).
  rewrite sweep_in by assumption. rewrite fit_same by (try (intros; now apply SE); try (apply SM; assumption); try (apply qpoint_lt; assumption); assumption). unfold displaced. rewrite foot_row by (assumption || lia). rewrite <- Rmult_assoc, msign_sq. ring.
Qed.

Lemma bounded_settled g : is_edge nd walls g -> bounded m bcs hang g -> settled g.
Proof. intros G BO f F. unfold x8. rewrite (average_bounded m bcs walls hang node wt ratio T B) by assumption. now apply at_edge_moved. Qed.
Lemma linked_value g h f : is_edge nd walls g -> is_edge nd walls h -> linked m hang (edge_face m g) (edge_face m h) -> (f < nfq)%nat ->
  d_ldg x8 (edge_face m g) f = 1 / 2 * (moved nd rs node adj (g_wall g) (face_point nd rs node (g_dim g) (g_sign g) f) + moved nd rs node adj (g_wall h) (face_point nd rs node (g_dim h) (g_sign h) f)).
Proof. intros G H L F. unfold x8. rewrite (average_linked m bcs walls hang node wt ratio T B k adj x g h) by assumption. now rewrite !at_edge_moved. Qed.
Lemma straight_same g h f : is_edge nd walls g -> is_edge nd walls h -> joined g h -> straight g h -> same_point nd g h (face_point nd rs node (g_dim g) (g_sign g) f) (face_point nd rs node (g_dim h) (g_sign h) f).
Proof.
  intros (W & D & NE & S) (W' & D' & NE' & S') J ST. destruct (ti_wall _ _ _ T _ W) as (_ & WD & _). destruct (ti_wall _ _ _ T _ W') as (_ & WD' & _). unfold same_point, face_point. rewrite !Nat.eqb_refl. split; [reflexivity|split; [reflexivity|]]. intros c C CG CW.
  destruct (Nat.eqb_spec c (g_dim g)); [contradiction|]. destruct J as [[J1 J2]|[J1 J2]].
  - rewrite <- J1. destruct (Nat.eqb_spec c (g_dim g)); [contradiction|reflexivity].
  - destruct (Nat.eqb_spec c (g_dim h)); [lia|]. f_equal. f_equal. unfold drop. unfold straight in ST. destruct (Nat.ltb_spec c (g_dim g)), (Nat.ltb_spec c (g_dim h)); try reflexivity; exfalso; lia.
Qed.
Lemma linked_settled g h : is_edge nd walls g -> is_edge nd walls h -> linked m hang (edge_face m g) (edge_face m h) -> joined g h -> straight g h -> meet nd rs node adj g h -> settled g.
Proof.
  intros G H L J ST M f F. rewrite (linked_value g h f) by assumption. rewrite <- (M _ _ (straight_same g h f G H J ST)). field.
Qed.

(** ** the last dimension *)
Definition last_dim (w : wall) (b : nat) : Prop := (b < nd)%nat /\ b <> w_dim w /\ forall j, (j < nd)%nat -> j <> w_dim w -> (j <= b)%nat.
Lemma new_last w b : In w walls -> last_dim w b -> exists a, (nd = 2%nat -> a = d_state x8 (w_elem w)) /\ new_state w = Sweep_Model.fit_dim nd rs n node lob (gather (m_elem m (w_elem w)) (d_ldg x8)) b a.
Proof.
  intros I (BN & NE & LA). destruct (ti_wall _ _ _ T w I) as (_ & WD & _). unfold new_state, fit_state. set (body := fun j_dim s => _).
  assert (SK : forall s, body (w_dim w) s = s) by (intros s; unfold body; now rewrite Nat.eqb_refl). assert (DO : forall s, body b s = Sweep_Model.fit_dim nd rs n node lob (gather (m_elem m (w_elem w)) (d_ldg x8)) b s) by (intros s; unfold body; apply Nat.eqb_neq in NE; now rewrite NE).
  destruct (Nat.eq_dec b (nd - 1)) as [E|E].
  - exists (loop (nd - 1) body (d_state x8 (w_elem w))). split.
    + intros N2'. rewrite N2' in *. cbn [Nat.sub loop seq fold_left]. unfold loop. cbn [seq fold_left]. replace 0%nat with (w_dim w) by lia. apply SK.
    + replace nd with (S (nd - 1)) at 1 by lia. rewrite loop_S. rewrite <- E at 1. apply DO.
  - assert (w_dim w = nd - 1)%nat as EW. { destruct (Nat.eq_dec (w_dim w) (nd - 1)); [assumption|]. specialize (LA (nd - 1)%nat ltac:(lia) ltac:(lia)). lia. }
    assert (EB : b = (nd - 2)%nat) by (specialize (LA (nd - 2)%nat ltac:(lia) ltac:(lia)); lia).
    exists (loop (nd - 2) body (d_state x8 (w_elem w))). split.
    + intros N2'. rewrite N2'. reflexivity.
    + replace nd with (S (S (nd - 2))) at 1 by lia. rewrite !loop_S. rewrite <- EB at 2. rewrite DO. replace (S (nd - 2)) with (w_dim w) by lia. now rewrite SK.
Qed.
Definition lowered (w : wall) (b f : nat) : nat := foot nd rs b (along nd rs (w_dim w) (i_qpoint (nth_row nd rs b f) 0) 0).
Lemma lowered_row w b f i : (w_dim w < nd)%nat -> (b < nd)%nat -> b <> w_dim w -> (f < nfq)%nat -> (i < rs)%nat ->
  along nd rs (w_dim w) (i_qpoint (nth_row nd rs b f) i) 0 = i_qpoint (nth_row nd rs b (lowered w b f)) i /\ (lowered w b f < nfq)%nat.
Proof.
  intros WD BN NE F I. assert (Q0 : (along nd rs (w_dim w) (i_qpoint (nth_row nd rs b f) 0) 0 < rs ^ nd)%nat) by (apply along_lt; try assumption; now apply qpoint_lt).
  assert (LF : (lowered w b f < nfq)%nat) by now apply foot_lt. split; [|exact LF]. apply (digits_ext rs nd); [exact RS|apply along_lt; try assumption; now apply qpoint_lt|now apply qpoint_lt|].
  intros c C. rewrite digit_along by (try assumption; now apply qpoint_lt). rewrite !digit_row by assumption. destruct (Nat.eqb_spec c (w_dim w)) as [->|NW].
  - destruct (Nat.eqb_spec (w_dim w) b); [congruence|]. unfold lowered. rewrite digit_foot by (assumption || lia). rewrite digit_along by (try assumption; now apply qpoint_lt). now rewrite Nat.eqb_refl.
  - destruct (Nat.eqb_spec c b) as [|NB]; [reflexivity|]. unfold lowered. rewrite digit_foot by (assumption || lia). rewrite digit_along by (try assumption; now apply qpoint_lt). apply Nat.eqb_neq in NW. rewrite NW. rewrite digit_row by assumption. apply Nat.eqb_neq in NB. now rewrite NB.
Qed.
Lemma digit_lowered w b f c : (w_dim w < nd)%nat -> (b < nd)%nat -> b <> w_dim w -> (f < nfq)%nat -> (c < nd)%nat -> c <> b ->
  digit rs (nd - 1) (drop b c) (lowered w b f) = if (c =? w_dim w)%nat then 0%nat else digit rs (nd - 1) (drop b c) f.
Proof.
  intros WD BN NE F C NB. assert (Q : (i_qpoint (nth_row nd rs b f) 0 < rs ^ nd)%nat) by now apply qpoint_lt. unfold lowered. rewrite digit_foot; try assumption; [|now apply along_lt]. rewrite digit_along by assumption. destruct (c =? w_dim w)%nat; [reflexivity|].
  rewrite digit_row by assumption. apply Nat.eqb_neq in NB. now rewrite NB.
Qed.
Lemma poly_more d d' f : (d <= d')%nat -> poly d f -> poly d' f.
Proof. induction 1; intros P; [exact P|]. apply poly_weaken. auto. Qed.
Lemma row_after w b : In w walls -> last_dim w b -> exists a, (nd = 2%nat -> a = d_state x8 (w_elem w)) /\ forall f t, (f < nfq)%nat ->
  moved nd rs node (fst s') w (at_coord (face_point nd rs node b 0 f) b t) =
  rsum n (fun l => lagrange n lob l t * ends n (fun sg => d_ldg x8 (e_face (m_elem m (w_elem w)) (2 * b + sg)%nat) (lowered w b f)) (fun l => rsum rs (fun i => lagrange rs node i (lob l) * a (i_qpoint (nth_row nd rs b (lowered w b f)) i))) l).
Proof.
  intros I LA. destruct (new_last w b I LA) as (a & A2 & E). destruct LA as (BN & NE & _). destruct (ti_wall _ _ _ T w I) as (_ & WD & _). exists a. split; [exact A2|]. intros f t F.
  rewrite <- row_value by assumption. set (P := fun t : R => rsum n (fun l => lagrange n lob l t * ends n (fun sg => d_ldg x8 (e_face (m_elem m (w_elem w)) (2 * b + sg)%nat) (lowered w b f)) (fun l => rsum rs (fun i => lagrange rs node i (lob l) * a (i_qpoint (nth_row nd rs b (lowered w b f)) i))) l)). change (rsum rs (fun i => lagrange rs node i t * displaced nd rs w (fst s') (i_qpoint (nth_row nd rs b f) i)) = P t).
  rewrite <- (reproduce rs node P t DI).
  - apply rsum_ext. intros i Hi. f_equal. rewrite displaced_new by (assumption || now apply qpoint_lt). destruct (lowered_row w b f i WD BN NE F Hi) as [-> LF]. rewrite E. rewrite fit_dim_is by assumption.
    pose proof (qpoint_lt nd rs b (lowered w b f) i RS BN LF Hi) as QL. apply Nat.ltb_lt in QL as QL'. rewrite QL'. unfold P. apply rsum_ext. intros l L. rewrite digit_row, Nat.eqb_refl by assumption. f_equal. rewrite foot_row by (assumption || lia). unfold ends. destruct (l =? n - 1)%nat; [reflexivity|]. destruct (l =? 0)%nat; [reflexivity|].
    apply rsum_ext. intros p Pp. f_equal. f_equal. rewrite <- row_along by assumption. now rewrite foot_row by (assumption || lia).
  - apply (poly_more n rs); [lia|]. unfold P. apply poly_rsum. intros j J. match goal with |- poly _ (fun x => _ * ?c) => apply (poly_ext n (fun x => c * lagrange n lob j x)); [apply poly_scal, lagrange_is_poly; exact J|intros; ring] end.
Qed.
Lemma edge_after g f : is_edge nd walls g -> last_dim (g_wall g) (g_dim g) -> (f < nfq)%nat ->
  moved nd rs node (fst s') (g_wall g) (face_point nd rs node (g_dim g) (g_sign g) f) = d_ldg x8 (edge_face m g) (lowered (g_wall g) (g_dim g) f).
Proof.
  intros (W & D & NE & S) LA F. destruct (ti_wall _ _ _ T _ W) as (_ & WD & _). destruct (row_after (g_wall g) (g_dim g) W LA) as (a & _ & E). specialize (E f (INR (g_sign g)) F).
  rewrite (moved_ext nd rs node RS N (fst s') (g_wall g) _ (at_coord (face_point nd rs node (g_dim g) 0 f) (g_dim g) (INR (g_sign g))) WD) by (intros c C _; unfold at_coord, face_point; now destruct (c =? g_dim g)%nat). rewrite E.
  destruct LO as (_ & L0 & L1). set (e := (g_sign g * (n - 1))%nat). assert (EN : (e < n)%nat) by (unfold e; destruct (g_sign g) as [|[|]]; lia). assert (LE : INR (g_sign g) = lob e) by (unfold e; destruct (g_sign g) as [|[|]]; [now rewrite Nat.mul_0_l, L0|now rewrite Nat.mul_1_l, L1|lia]).
  rewrite LE. rewrite (rsum_single n e); [|exact EN|].
  - rewrite lagrange_node, Nat.eqb_refl, Rmult_1_l by assumption. unfold ends, edge_face, e. destruct (g_sign g) as [|[|]]; [| |lia].
    + rewrite Nat.mul_0_l. destruct (Nat.eqb_spec 0 (n - 1)); [lia|]. reflexivity.
    + rewrite Nat.mul_1_l. now rewrite Nat.eqb_refl.
  - intros l L NL. rewrite lagrange_node by assumption. apply Nat.eqb_neq in NL. rewrite NL. ring.
Qed.
End Mesh.
