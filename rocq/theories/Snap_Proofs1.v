(** The points of elements and faces with adjustments. *)
From Coq Require Import Reals List Arith Lia Lra.
From Verif Require Import Outcome RSum Tensor_Model Tensor_Spec Tensor_Proofs Row_Model Row_Spec Row_Proofs Basis_Model Basis_Spec Basis_Proofs Quad_Model Quad_Spec Quad_Proofs Spatial_Model Spatial_Spec Free_Spec Free_Proofs1 Jac_Model Jac_Spec Jac_Proofs4 Jac_Proofs5 Jac_Proofs10 Snap_Model Snap_Spec.
Import ListNotations.
Local Open Scope R_scope.

Lemma face_qpoint_foot nd rs q d : (2 <= nd <= 3)%nat -> (0 < rs)%nat -> (q < rs ^ nd)%nat -> (d < nd)%nat -> face_qpoint nd rs q d = foot nd rs d q.
Proof.
  intros N RS Q D. assert (H : nd = 2%nat \/ nd = 3%nat) by lia. destruct H as [-> | ->].
  - assert (S1 : (rs ^ 2 / rs / rs = 1)%nat) by (cbn [Nat.pow]; rewrite Nat.mul_1_r, Nat.div_mul, Nat.div_same; lia).
    assert (QR : (q / rs < rs)%nat) by (apply Nat.div_lt_upper_bound; cbn [Nat.pow] in Q; lia).
    destruct d as [|[|d]]; [| |lia]; unfold face_qpoint, foot; rewrite S1; cbn -[Nat.div Nat.modulo Nat.mul]; rewrite ?Nat.mul_1_r, ?Nat.div_1_r, ?Nat.mul_1_l, ?Nat.mod_1_r, ?Nat.add_0_r, ?Nat.add_0_l.
    + rewrite Nat.div_small; [lia|]. cbn [Nat.pow] in Q. lia.
    + now rewrite Nat.mod_small.
  - assert (S1 : (rs ^ 3 / rs / rs = rs)%nat) by (cbn [Nat.pow]; rewrite Nat.mul_1_r; rewrite (Nat.mul_comm rs (rs * rs)), Nat.div_mul, Nat.div_mul; lia).
    assert (QR : (q / (rs * rs) < rs)%nat) by (apply Nat.div_lt_upper_bound; cbn [Nat.pow] in Q; nia).
    assert (MM : forall a, ((a / rs) mod rs * rs + a mod rs = a mod (rs * rs))%nat) by (intros a; rewrite Nat.mod_mul_r by lia; lia).
    destruct d as [|[|[|d]]]; [| | |lia]; unfold face_qpoint, foot; rewrite S1; cbn -[Nat.div Nat.modulo Nat.mul]; rewrite ?Nat.mul_1_r, ?Nat.div_1_r, ?Nat.mul_1_l, ?Nat.mod_1_r, ?Nat.add_0_r, ?Nat.add_0_l, ?Nat.div_same, ?Nat.mul_1_r by lia.
    + rewrite MM, (Nat.div_small q); [lia|]. cbn [Nat.pow] in Q. lia.
    + rewrite (Nat.mod_small (q / _)) by exact QR. reflexivity.
    + rewrite (Nat.mod_small (q / (_ * _))) by exact QR. rewrite <- (Nat.div_div q rs rs) by lia. pose proof (Nat.div_mod (q / rs) rs ltac:(lia)). lia.
Qed.
Lemma pow_div nd rs : (0 < rs)%nat -> (0 < nd)%nat -> (rs ^ nd / rs = rs ^ (nd - 1))%nat.
Proof. intros RS N. destruct nd as [|n]; [lia|]. cbn [Nat.pow]. rewrite Nat.mul_comm, Nat.div_mul, Nat.sub_succ, Nat.sub_0_r by lia. reflexivity. Qed.

Lemma position_warped nd rs node vert adj q : (2 <= nd <= 3)%nat -> (0 < rs)%nat -> (q < rs ^ nd)%nat -> position nd rs node vert adj q = warped nd rs node vert adj q.
Proof.
  intros N RS Q. unfold warped. cbv zeta.
  transitivity (multilinear nd vert (fun d => node ((q / rs ^ (nd - d - 1)) mod rs)%nat) + rsum nd (fun d => let x d := node ((q / rs ^ (nd - d - 1)) mod rs)%nat in
    ((1 - x d) * adj (2 * d * (rs ^ nd / rs) + face_qpoint nd rs q d + 0 * (rs ^ nd / rs))%nat + x d * adj (2 * d * (rs ^ nd / rs) + face_qpoint nd rs q d + 1 * (rs ^ nd / rs))%nat) * (multilinear nd vert (at_coord x d 1) - multilinear nd vert (at_coord x d 0)))).
  - clear Q. assert (H : nd = 2%nat \/ nd = 3%nat) by lia. destruct H as [-> | ->].
    + set (X := fun d => node ((q / rs ^ (2 - d - 1)) mod rs)%nat). unfold position. cbn [seq rev app fold_left]. change (node ((q / rs ^ (2 - 1 - 1)) mod rs)%nat) with (X 1%nat). change (node ((q / rs ^ (2 - 0 - 1)) mod rs)%nat) with (X 0%nat).
      generalize X. clear X. intros X. set (nfq := (rs ^ 2 / rs)%nat). generalize (face_qpoint 2 rs q). intros F. cbv zeta.
      set (A := fun d s => adj (2 * d * nfq + F d + s * nfq)%nat). cbn [rsum].
      change (adj (2 * 1 * nfq + F 1%nat + 0 * nfq)%nat) with (A 1%nat 0%nat). change (adj (2 * 1 * nfq + F 1%nat + 1 * nfq)%nat) with (A 1%nat 1%nat).
      change (adj (2 * 0 * nfq + F 0%nat + 0 * nfq)%nat) with (A 0%nat 0%nat). change (adj (2 * 0 * nfq + F 0%nat + 1 * nfq)%nat) with (A 0%nat 1%nat).
      generalize A. clear A. intros A. unfold multilinear, vertex_weight, at_coord. cbn. ring.
    + set (X := fun d => node ((q / rs ^ (3 - d - 1)) mod rs)%nat). unfold position. cbn [seq rev app fold_left]. change (node ((q / rs ^ (3 - 2 - 1)) mod rs)%nat) with (X 2%nat). change (node ((q / rs ^ (3 - 1 - 1)) mod rs)%nat) with (X 1%nat). change (node ((q / rs ^ (3 - 0 - 1)) mod rs)%nat) with (X 0%nat).
      generalize X. clear X. intros X. set (nfq := (rs ^ 3 / rs)%nat). generalize (face_qpoint 3 rs q). intros F. cbv zeta.
      set (A := fun d s => adj (2 * d * nfq + F d + s * nfq)%nat). cbn [rsum].
      change (adj (2 * 2 * nfq + F 2%nat + 0 * nfq)%nat) with (A 2%nat 0%nat). change (adj (2 * 2 * nfq + F 2%nat + 1 * nfq)%nat) with (A 2%nat 1%nat).
      change (adj (2 * 1 * nfq + F 1%nat + 0 * nfq)%nat) with (A 1%nat 0%nat). change (adj (2 * 1 * nfq + F 1%nat + 1 * nfq)%nat) with (A 1%nat 1%nat).
      change (adj (2 * 0 * nfq + F 0%nat + 0 * nfq)%nat) with (A 0%nat 0%nat). change (adj (2 * 0 * nfq + F 0%nat + 1 * nfq)%nat) with (A 0%nat 1%nat).
      generalize A. clear A. intros A. unfold multilinear, vertex_weight, at_coord. cbn. ring.
  - assert (X : forall d, (d < nd)%nat -> node ((q / rs ^ (nd - d - 1)) mod rs)%nat = node (digit rs nd d q)) by (intros d D; unfold digit; do 4 f_equal; lia).
    f_equal; [now apply multilinear_ext|]. apply rsum_ext. intros d D. cbv beta zeta. rewrite X by exact D. rewrite face_qpoint_foot, pow_div by lia. f_equal.
    + f_equal; do 2 f_equal; lia.
    + f_equal; apply multilinear_ext; try reflexivity; intros k K; unfold at_coord; now rewrite X.
Qed.

(** ** the points of faces *)
Lemma row_start_row nd rs d k i : (2 <= nd <= 3)%nat -> (0 < rs)%nat -> (d < nd)%nat -> (k < rs ^ (nd - 1))%nat -> (row_start nd rs d k + rs ^ (nd - 1 - d) * i)%nat = i_qpoint (nth_row nd rs d k) i.
Proof.
  intros N RS D K. unfold i_qpoint, nth_row. cbn [i_outer i_inner ri_stride ri_row_size]. rewrite (Nat.mul_comm _ i). f_equal. assert (H : nd = 2%nat \/ nd = 3%nat) by lia. destruct H as [-> | ->]; cbn [Nat.sub Nat.pow] in K; rewrite ?Nat.mul_1_r in K.
  - destruct d as [|[|d]]; [| |lia]; unfold row_start; cbn -[Nat.div Nat.modulo Nat.mul]; rewrite ?Nat.mul_1_r, ?Nat.div_1_r, ?Nat.mul_1_l, ?Nat.mod_1_r, ?Nat.add_0_r, ?Nat.add_0_l.
    + rewrite Nat.div_small by lia. lia.
    + rewrite Nat.mod_small by lia. lia.
  - assert (QR : (k / rs < rs)%nat) by (apply Nat.div_lt_upper_bound; lia). pose proof (Nat.div_mod k rs ltac:(lia)) as DM.
    destruct d as [|[|[|d]]]; [| | |lia]; unfold row_start; cbn -[Nat.div Nat.modulo Nat.mul]; rewrite ?Nat.mul_1_r, ?Nat.div_1_r, ?Nat.mul_1_l, ?Nat.mod_1_r, ?Nat.add_0_r, ?Nat.add_0_l.
    + rewrite (Nat.mod_small (k / rs)) by exact QR. rewrite (Nat.div_small k (rs * rs)), (Nat.mod_small k (rs * rs)) by lia. lia.
    + rewrite (Nat.mod_small (k / rs)) by exact QR. nia.
    + rewrite (Nat.mod_small (k / rs)) by exact QR. nia.
Qed.

Section Face.
Variables (nd rs : nat) (node w : nat -> R) (ratio : R) (vert adj : arr).
Hypotheses (N : (2 <= nd <= 3)%nat) (RS : (2 <= rs)%nat) (DI : distinct rs node).
Local Notation nfq := (rs ^ (nd - 1))%nat.
Local Notation b := (basis_on rs node w ratio).
Definition face_coord (k l : nat) : R := node (digit rs (nd - 1) l k).
Lemma row_coord d k i c : (d < nd)%nat -> (k < nfq)%nat -> (i < rs)%nat -> (c < nd)%nat -> node (digit rs nd c (i_qpoint (nth_row nd rs d k) i)) = setx (on_face_at d 0 (face_coord k)) d (node i) c.
Proof.
  intros D K I C. rewrite digit_row by (assumption || lia). unfold setx, on_face_at, face_coord, drop. destruct (Nat.eqb_spec c d); [reflexivity|]. destruct (Nat.ltb_spec c d); reflexivity.
Qed.
Lemma foot_row d k i : (d < nd)%nat -> (k < nfq)%nat -> (i < rs)%nat -> foot nd rs d (i_qpoint (nth_row nd rs d k) i) = k.
Proof.
  intros D K I. pose proof (Nat.pow_nonzero rs (nd - 1 - d) ltac:(lia)) as Z. unfold foot, i_qpoint, nth_row. cbn [i_outer i_inner ri_stride ri_row_size]. set (s := (rs ^ (nd - 1 - d))%nat) in *.
  pose proof (Nat.mod_upper_bound k s Z) as U. rewrite (Nat.div_mod k s Z) at 5. replace (k / s * s * rs + k mod s + i * s)%nat with ((k mod s + i * s) + k / s * (s * rs))%nat by lia.
  rewrite Nat.div_add, Nat.div_small by nia. replace (k mod s + i * s + k / s * (s * rs))%nat with (k mod s + (i + k / s * rs) * s)%nat by lia. rewrite Nat.mod_add, Nat.mod_mod by lia. lia.
Qed.
(** only the face [2*d+s] has adjustments *)
Lemma face_position_is d s : (d < nd)%nat -> (s < 2)%nat -> (forall k, (k / nfq <> 2 * d + s)%nat -> adj k = 0) -> forall s' k, (s' < 2)%nat -> (k < nfq)%nat ->
  face_position nd rs b node vert adj (2 * d + s') k = multilinear nd vert (on_face_at d s' (face_coord k)) + (if (s' =? s)%nat then adj ((2 * d + s) * nfq + k)%nat * tang nd vert d (on_face_at d 0 (face_coord k)) else 0).
Proof.
  intros D S O s' k S' K. unfold face_position. replace ((2 * d + s') / 2)%nat with d by (apply (Nat.div_unique _ 2 d s'); lia). replace ((2 * d + s') mod 2)%nat with s' by (apply (Nat.mod_unique _ 2 d s'); lia).
  assert (NZ : nfq <> 0%nat) by (apply Nat.pow_nonzero; lia).
  assert (OV : forall d' s'' p, (d' < nd)%nat -> (s'' < 2)%nat -> (p < nfq)%nat -> (d' <> d \/ s'' <> s) -> adj ((2 * d' + s'') * nfq + p)%nat = 0).
  { intros d' s'' p D' S'' P NE. apply O. rewrite Nat.add_comm, Nat.div_add, Nat.div_small by lia. lia. }
  set (x := on_face_at d 0 (face_coord k)). set (T := tang nd vert d x). set (A := adj ((2 * d + s) * nfq + k)%nat).
  rewrite (rsum_ext rs _ (fun i => py_interpolate rs node i (INR s') * (multilinear nd vert (setx x d 0) + (T + (if (s =? 0)%nat then - A * T else A * T)) * node i + (if (s =? 0)%nat then A * T else 0)))).
  - rewrite (interp_exact rs node (fun t => multilinear nd vert (setx x d 0) + (T + (if (s =? 0)%nat then - A * T else A * T)) * t + (if (s =? 0)%nat then A * T else 0)) (INR s') DI).
    + replace (multilinear nd vert (on_face_at d s' (face_coord k))) with (multilinear nd vert (setx x d (INR s'))).
      * rewrite (multi_linear nd vert x d (INR s') N D). fold T. destruct s as [|[|]], s' as [|[|]]; try lia; cbn [Nat.eqb INR]; ring.
      * apply multilinear_ext; [reflexivity|]. intros c C. unfold setx, x, on_face_at. destruct (Nat.ltb_spec c d), (Nat.eqb_spec c d); try lia; reflexivity.
    + apply (poly_ext rs (fun t => (multilinear nd vert (setx x d 0) + (if (s =? 0)%nat then A * T else 0)) + (T + (if (s =? 0)%nat then - A * T else A * T)) * t)); [|intros; ring].
      destruct rs as [|[|n]]; [lia..|]. clear. generalize (multilinear nd vert (setx x d 0) + (if (s =? 0)%nat then A * T else 0)) (T + (if (s =? 0)%nat then - A * T else A * T)). intros c0 c1.
      apply (poly_S (S n) c0 (fun _ => c1)); [|intros; ring]. apply (poly_S n c1 (fun _ => 0)); [apply poly_zero|intros; ring].
  - intros i I. change (b_boundary b s' i) with (py_interpolate rs node i (INR s')). f_equal. rewrite row_start_row by (assumption || lia). pose proof (qpoint_lt nd rs d k i ltac:(lia) D K I) as QL. rewrite position_warped by (assumption || lia). unfold warped.
    rewrite (multilinear_ext nd vert vert _ (setx x d (node i))) by (reflexivity || (intros c C; now apply row_coord)). rewrite (multi_linear nd vert x d (node i) N D). fold T.
    rewrite (rsum_single nd d); [|exact D|].
    + rewrite foot_row by assumption. set (X := fun d0 => node (digit rs nd d0 (i_qpoint (nth_row nd rs d k) i))).
      assert (XT : forall t, multilinear nd vert (at_coord X d t) = multilinear nd vert (setx x d t)).
      { intros t. apply multilinear_ext; [reflexivity|]. intros c C. unfold at_coord. destruct (Nat.eqb_spec c d) as [->|NE]; [unfold setx; now rewrite Nat.eqb_refl|]. unfold X. rewrite row_coord by assumption. unfold setx. apply Nat.eqb_neq in NE. now rewrite !NE. }
      rewrite !XT. change (multilinear nd vert (setx x d 1) - multilinear nd vert (setx x d 0)) with T. rewrite row_coord by assumption. replace (setx (on_face_at d 0 (face_coord k)) d (node i) d) with (node i) by (unfold setx; now rewrite Nat.eqb_refl).
      destruct s as [|[|]]; [| |lia]; cbn [Nat.eqb]; unfold A.
      * rewrite (OV d 1%nat k) by (assumption || lia). ring.
      * rewrite (OV d 0%nat k) by (assumption || lia). ring.
    + intros c C NE. rewrite (OV c 0%nat), (OV c 1%nat) by (try lia; try (apply foot_lt; assumption || lia); now left). ring.
Qed.
End Face.
