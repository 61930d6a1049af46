(** All sweeps. *)
From Coq Require Import Reals List Arith Lia Lra FunctionalExtensionality.
From Verif Require Import Outcome RSum Tensor_Spec Tensor_Proofs Row_Model Row_Spec Row_Proofs Connection_Model Basis_Model Basis_Spec Basis_Proofs Quad_Model Quad_Spec Quad_Proofs Spatial_Model Spatial_Spec Spatial_Proofs Spatial_Proofs2 Spatial_Proofs3 Spatial_Proofs4 Spatial_Proofs5 Free_Spec Free_Model Free_Proofs1 Jac_Proofs4 Snap_Proofs1 Snap_Proofs2 Sweep_Model Sweep_Spec Sweep_Proofs1 Sweep_Proofs2 Sweep_Proofs3 Sweep_Proofs4.
From Verif Require Import Snap_Spec.
Import ListNotations.
Local Open Scope R_scope.

Section Mesh.
Variables (m : mesh) (bcs : list (nat * nat)) (walls : list wall) (hang : list con) (node wt : nat -> R) (ratio : R) (lobs : nat -> nat -> R).
Hypothesis T : tidy m bcs walls.
Local Notation nd := (m_dim m).
Local Notation rs := (m_row_size m).
Local Notation nfq := (rs ^ (nd - 1))%nat.
Local Notation n := (Nat.max 2 (rs - 1)).
Local Notation lob := (lobs n).
Variables (adj : nat -> arr) (x : data).
Local Notation result := (sweeps m node lobs hang bcs walls adj x).
Let RS2 : (2 <= rs)%nat := ti_rows _ _ _ T.
Let RS : (0 < rs)%nat. Proof. lia. Qed.
Let N3 : (2 <= nd <= 3)%nat := ti_dim _ _ _ T.
Let N : (0 < nd)%nat. Proof. lia. Qed.
Let body := sweep m node lobs hang bcs walls.
Let run := loop (nd - 1) body (adj, save m x).
Let result_is : result = (fst run, put_back m (snd run)). Proof. unfold sweeps. fold body. fold run. now destruct run. Qed.

Let run_keeps : d_ref (snd run) = d_ref (save m x) /\ forall i q, (~ In i (elems m) \/ ((nd + 2) * rs ^ nd <= q)%nat) -> d_state (snd run) i q = d_state x i q.
Proof.
  unfold run. apply (loop_inv (fun _ s => d_ref (snd s) = d_ref (save m x) /\ forall i q, (~ In i (elems m) \/ ((nd + 2) * rs ^ nd <= q)%nat) -> d_state (snd s) i q = d_state x i q)); [now split|].
  intros k [a y] K (R & S). cbn [snd] in R, S. unfold body. split.
  - rewrite (sweep_ref m bcs walls hang node lobs T k a y). exact R.
  - intros i q H. rewrite (sweep_beyond m bcs walls hang node lobs T k a y i q H). now apply S.
Qed.
Lemma sweeps_states i q : d_state (snd result) i q = d_state x i q.
Proof.
  rewrite result_is. cbn [snd]. destruct run_keeps as [R S]. cbn [put_back with_state d_state].
  destruct (fold_fput (fun i a k => if (k <? (nd + 2) * rs ^ nd)%nat then d_ref (snd run) i k else a k) (fun i => i) (elems m)) with (s := d_state (snd run)) as [F1 F2]; [rewrite map_id; apply (ti_elems _ _ _ T)|]. rewrite map_id in F2.
  destruct (in_dec Nat.eq_dec i (elems m)) as [I|I]; [|rewrite F2 by exact I; apply S; now left]. rewrite F1 by exact I. destruct (Nat.ltb_spec q ((nd + 2) * rs ^ nd)) as [Q|Q]; [|apply S; now right].
  rewrite R. cbn [save d_ref]. destruct (fold_fput (fun i a k => if (k <? (nd + 2) * rs ^ nd)%nat then d_state x i k else a k) (fun i => i) (elems m)) with (s := d_ref x) as [G1 _]; [rewrite map_id; apply (ti_elems _ _ _ T)|]. rewrite G1 by exact I. apply Nat.ltb_lt in Q. now rewrite Q.
Qed.
Lemma sweeps_elsewhere i q : (forall w f, In w walls -> i = w_elem w -> (f < nfq)%nat -> q <> (2 * w_dim w + w_sign w) * nfq + f)%nat -> fst result i q = adj i q.
Proof.
  intros H. rewrite result_is. cbn [fst]. unfold run. apply (loop_inv (fun _ s => fst s i q = adj i q)); [reflexivity|]. intros k [a y] K E. cbn [fst] in E. rewrite <- E. unfold body. apply (sweep_out m bcs walls hang node lobs T). intros w f W I F. rewrite wall_offset_is by assumption. now apply H.
Qed.

Hypotheses (B : m_basis m = basis_on rs node wt ratio) (DI : distinct rs node) (LO : lobatto n lob).
Lemma sweeps_same : (forall w, In w walls -> smooth nd rs node n lob adj w) ->
  (forall g, is_edge nd walls g -> bounded m bcs hang g \/ exists h, is_edge nd walls h /\ linked m hang (edge_face m g) (edge_face m h) /\ joined g h /\ straight g h /\ meet nd rs node adj g h) -> fst result = adj.
Proof.
  intros SM E. rewrite result_is. cbn [fst]. unfold run. apply (loop_inv (fun _ s => fst s = adj)); [reflexivity|]. intros k [a y] K A. cbn [fst] in A. subst a. unfold body.
  apply (sweep_same m bcs walls hang node lobs T DI LO k adj y SM). intros g G. destruct (E g G) as [BO|(h & H & L & J & ST & M)].
  - now apply (bounded_settled m bcs walls hang node wt ratio T B DI).
  - now apply (linked_settled m bcs walls hang node wt ratio T B DI k adj y g h).
Qed.

(** ** the plane: one sweep *)
Hypothesis P : nd = 2%nat.
Let one : fst result = fst (sweep m node lobs hang bcs walls 0 (adj, save m x)).
Proof. rewrite result_is. cbn [fst]. unfold run. rewrite P. reflexivity. Qed.
Let plane_last w b : (w_dim w < nd)%nat -> (b < nd)%nat -> b <> w_dim w -> last_dim m w b.
Proof. intros WD BN NE. split; [exact BN|split; [exact NE|]]. intros j J NJ. lia. Qed.
(** in the plane the displacement depends on one coordinate only *)
Let plane_ext a w y z b : (w_dim w < nd)%nat -> (b < nd)%nat -> b <> w_dim w -> y b = z b -> moved nd rs node a w y = moved nd rs node a w z.
Proof. intros WD BN NE E. apply moved_ext; try assumption. intros c C NC. replace c with b by lia. exact E. Qed.
Lemma plane_edge g : is_edge nd walls g -> forall y, y (g_dim g) = INR (g_sign g) ->
  (bounded m bcs hang g -> moved nd rs node (fst result) (g_wall g) y = moved nd rs node adj (g_wall g) y) /\
  (forall h z, is_edge nd walls h -> linked m hang (edge_face m g) (edge_face m h) -> z (g_dim h) = INR (g_sign h) -> moved nd rs node (fst result) (g_wall g) y = (moved nd rs node adj (g_wall g) y + moved nd rs node adj (g_wall h) z) / 2).
Proof.
  intros G y Y. pose proof G as (W & D & NE & S). destruct (ti_wall _ _ _ T _ W) as (_ & WD & _). assert (F0 : (0 < nfq)%nat) by (apply Nat.neq_0_lt_0, Nat.pow_nonzero; lia).
  assert (E : moved nd rs node (fst result) (g_wall g) y = d_ldg (average m hang bcs walls 0 adj (save m x)) (edge_face m g) (lowered m (g_wall g) (g_dim g) 0)).
  { rewrite one. rewrite <- (edge_after m bcs walls hang node lobs T DI LO 0 adj (save m x) g 0 G (plane_last _ _ WD D NE) F0). apply (plane_ext _ _ _ _ (g_dim g)); try assumption. unfold face_point. now rewrite Nat.eqb_refl. }
  assert (LF : (lowered m (g_wall g) (g_dim g) 0 < nfq)%nat) by (apply (lowered_row m bcs walls T (g_wall g) (g_dim g) 0 0); assumption).
  split.
  - intros BO. rewrite E. rewrite (bounded_settled m bcs walls hang node wt ratio T B DI 0 adj (save m x) g G BO _ LF). apply (plane_ext _ _ _ _ (g_dim g)); try assumption. unfold face_point. now rewrite Nat.eqb_refl.
  - intros h z H L Z. rewrite E. rewrite (linked_value m bcs walls hang node wt ratio T B DI 0 adj (save m x) g h _ G H L LF). destruct H as (W' & D' & NE' & S'). destruct (ti_wall _ _ _ T _ W') as (_ & WD' & _).
    rewrite (plane_ext adj (g_wall g) _ y (g_dim g)), (plane_ext adj (g_wall h) _ z (g_dim h)); try assumption; [field| |]; unfold face_point; rewrite Nat.eqb_refl; now symmetry.
Qed.
Lemma plane_inner w b l y : In w walls -> (b < nd)%nat -> b <> w_dim w -> (0 < l < n - 1)%nat -> y b = lob l -> moved nd rs node (fst result) w y = moved nd rs node adj w y.
Proof.
  intros W BN NE L Y. destruct (ti_wall _ _ _ T _ W) as (_ & WD & _). assert (F0 : (0 < nfq)%nat) by (apply Nat.neq_0_lt_0, Nat.pow_nonzero; lia). rewrite one.
  destruct (row_after m bcs walls hang node lobs T DI 0 adj (save m x) w b W (plane_last w b WD BN NE)) as (a & A & E). specialize (E 0%nat (lob l) F0). rewrite (A P) in E. clear A.
  rewrite (plane_ext _ w y (at_coord (face_point nd rs node b 0 0) b (lob l)) b) by (try assumption; unfold at_coord; now rewrite Nat.eqb_refl). rewrite E. destruct LO as (DL & _ & _).
  rewrite (rsum_single n l); [|lia|].
  - rewrite lagrange_node, Nat.eqb_refl, Rmult_1_l by (assumption || lia). unfold ends. destruct (Nat.eqb_spec l (n - 1)); [lia|]. destruct (Nat.eqb_spec l 0); [lia|]. set (f := lowered m w b 0). assert (LF : (f < nfq)%nat) by (apply (lowered_row m bcs walls T w b 0 0); assumption).
    rewrite (rsum_ext rs _ (fun i => lagrange rs node i (lob l) * displaced nd rs w adj (i_qpoint (nth_row nd rs b f) i))).
    + rewrite row_value by assumption. apply (plane_ext _ _ _ _ b); try assumption. unfold at_coord. rewrite Nat.eqb_refl. now symmetry.
    + intros i I. f_equal. apply (old_state m bcs walls hang T); [exact W|now apply qpoint_lt].
  - intros l' L' NL. rewrite lagrange_node by (assumption || lia). apply Nat.eqb_neq in NL. rewrite NL. ring.
Qed.
End Mesh.
