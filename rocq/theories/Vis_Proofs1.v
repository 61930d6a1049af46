(** Proofs about the sampling of elements. *)
From Coq Require Import Reals List Arith Bool Lia Lra.
From Verif Require Import Outcome Loop RSum Tensor_Model Tensor_Spec Tensor_Proofs Row_Model Row_Spec Row_Proofs Basis_Model Basis_Spec Basis_Proofs Spatial_Proofs3 Jac_Proofs4 Snap_Spec Snap_Proofs2 Vis_Model Vis_Spec.
Import ListNotations.
Local Open Scope R_scope.

Lemma ofold_seq {S} (f : nat -> S -> outcome S) (P : nat -> S -> Prop) n s :
  P 0%nat s -> (forall i t, (i < n)%nat -> P i t -> exists t', f i t = Ok t' /\ P (Datatypes.S i) t') -> exists s', ofold f (seq 0 n) s = Ok s' /\ P n s'.
Proof.
  intros Z. induction n as [|n IH]; intros H; [exists s; split; [reflexivity|exact Z]|]. destruct IH as (t & E & T); [intros; apply H; auto|].
  rewrite seq_S, ofold_app, E. cbn [bind ofold Nat.add]. destruct (H n t ltac:(lia) T) as (t' & E' & T'). exists t'. rewrite E'. split; [reflexivity|exact T'].
Qed.

Lemma poly_polynomial n f : poly n f -> exists c, forall x, f x = polynomial n c x.
Proof.
  induction 1 as [f Z|d a g f P (c & IH) F]; [exists (fun _ => 0); exact Z|]. exists (fun k => match k with O => a | S k => c k end). intros x. rewrite F, IH. unfold polynomial. rewrite rsum_shift. cbn [pow].
  rewrite Rmult_1_r. f_equal. rewrite <- rsum_scal. apply rsum_ext. intros. ring.
Qed.
Lemma ends_lagrange rs node bound s j : distinct rs node -> ends rs node bound -> (s < 2)%nat -> (j < rs)%nat -> bound s j = lagrange rs node j (INR s).
Proof.
  intros D E S J. destruct (poly_polynomial rs (lagrange rs node j) (lagrange_is_poly rs node j J)) as (c & C). rewrite C. rewrite <- (E s c S). rewrite (rsum_single rs j).
  - rewrite <- C, lagrange_node by assumption. rewrite Nat.eqb_refl. ring.
  - exact J.
  - intros i I NE. rewrite <- C, lagrange_node by assumption. apply not_eq_sym, Nat.eqb_neq in NE. rewrite NE. ring.
Qed.

(** ** sums over one dimension *)
Lemma through_last n rs node val y : (0 < rs)%nat -> through (S n) rs node val y = through n rs node (fun q => rsum rs (fun j => lagrange rs node j (y n) * val (q * rs + j)%nat)) y.
Proof.
  intros P. unfold through. rewrite Nat.pow_succ_r', Nat.mul_comm, rsum_mult. apply rsum_ext. intros q Q. rewrite <- rsum_scal. apply rsum_ext. intros j J. cbn [rprod]. rewrite Rmult_assoc. f_equal; [|f_equal].
  - apply rprod_ext. intros l L. f_equal. unfold digit. replace (S n - 1 - l)%nat with (S (n - 1 - l)) by lia. rewrite Nat.pow_succ_r'. assert (NZ : (rs ^ (n - 1 - l) <> 0)%nat) by (apply Nat.pow_nonzero; lia). rewrite <- Nat.div_div by (exact NZ || lia).
    rewrite (Nat.add_comm (q * rs)), Nat.div_add by lia. rewrite (Nat.div_small j) by lia. reflexivity.
  - rewrite lagrange_poly_eq. f_equal. unfold digit. replace (S n - 1 - n)%nat with 0%nat by lia. rewrite Nat.pow_0_r, Nat.div_1_r, Nat.add_comm, Nat.mod_add by lia. now apply Nat.mod_small.
Qed.
Lemma through_row n rs node val y d : (0 < rs)%nat -> (d < n)%nat ->
  through n rs node val y = through (n - 1) rs node (fun f => rsum rs (fun j => lagrange rs node j (y d) * val (i_qpoint (nth_row n rs d f) j))) (fun l => y (Spatial_Proofs.skip d l)).
Proof.
  intros P D. unfold through. rewrite (rsum_rows n rs d) by assumption. apply rsum_ext. intros f F. rewrite <- rsum_scal. apply rsum_ext. intros j J.
  rewrite (Spatial_Proofs.rprod_split n d) by exact D. rewrite digit_row by assumption. rewrite Nat.eqb_refl, lagrange_poly_eq.
  rewrite (rprod_ext (n - 1) _ (fun l => lagrange_poly rs node (digit rs (n - 1) l f) (y (Spatial_Proofs.skip d l)))); [ring|].
  intros l L. unfold Spatial_Proofs.skip. rewrite digit_row; try assumption; [|destruct (l <? d)%nat; lia]. f_equal.
  destruct (Nat.ltb_spec l d) as [H|H]; (match goal with |- context [(?a =? ?b)%nat] => destruct (Nat.eqb_spec a b) as [X|_]; [lia|] end); f_equal; unfold drop; [destruct (Nat.ltb_spec l d)|destruct (Nat.ltb_spec (S l) d)]; lia.
Qed.
Lemma on_face_skip a s y l : on_face_at a s y (Spatial_Proofs.skip a l) = y l.
Proof.
  unfold Spatial_Proofs.skip, on_face_at. destruct (Nat.ltb_spec l a) as [H|H].
  - destruct (Nat.ltb_spec l a); [reflexivity|lia].
  - destruct (Nat.ltb_spec (S l) a); [lia|]. destruct (Nat.eqb_spec (S l) a); [lia|]. rewrite Nat.sub_succ, Nat.sub_0_r. reflexivity.
Qed.

(** ** the interpolation in a cube *)
Lemma cube_ok fuel n n' rs node sample M v : (1 <= n <= fuel)%nat -> (0 < n')%nat -> (2 <= rs)%nat -> (forall i j, (i < n')%nat -> (j < rs)%nat -> M i j = lagrange rs node j (sample i)) ->
  exists out, hypercube_matvec fuel (mk_mat n' rs M) (rs ^ n) v = Ok (n' ^ n, out)%nat /\ forall k, (k < n' ^ n)%nat -> out k = through n rs node v (fun l => sample (digit n' n l k)).
Proof.
  intros N N' RS HM. destruct (hypercube_main (mk_mat n' rs M) n v fuel) as (out & E & H); cbn [rows cols]; try lia. cbn [rows cols] in *. exists out. split; [exact E|].
  intros k K. rewrite H by exact K. unfold through. apply rsum_ext. intros j J. f_equal. unfold kronecker_power. apply rprod_ext. intros l L. cbn [entry rows cols].
  rewrite lagrange_poly_eq. apply HM; unfold digit; apply Nat.mod_upper_bound; lia.
Qed.

Section Vis.
Variables (d : vis).
Let nd := v_dim d. Let rs := v_row_size d. Let node := v_node d.
Hypotheses (ND : (1 <= nd)%nat) (RS : (2 <= rs)%nat).

Lemma interior_ok fuel n_sample : (nd <= fuel)%nat -> (1 <= n_sample)%nat ->
  exists out, interior fuel d n_sample = Ok (n_sample ^ nd * v_var d, out)%nat /\
  forall v i, (v < v_var d)%nat -> (i < n_sample ^ nd)%nat -> out (v * n_sample ^ nd + i)%nat = through nd rs node (variable d v) (block_point n_sample nd i).
Proof.
  intros F NS. unfold interior. fold nd. set (nb := (n_sample ^ nd)%nat). set (body := fun (i_var : nat) (result : nat -> R) => _).
  destruct (ofold_seq body (fun m r => forall v i, (v < m)%nat -> (i < nb)%nat -> r (v * nb + i)%nat = through nd rs node (variable d v) (block_point n_sample nd i)) (v_var d) (fun _ => 0)) as (r & E & H).
  - intros; lia.
  - intros m r M IH. unfold body. destruct (cube_ok fuel nd n_sample rs node (lin_spaced n_sample) (interpolate rs node (lin_spaced n_sample)) (variable d m)) as (out & E & O); try assumption; try lia; [reflexivity|].
    unfold interp_mat, n_qpoint. fold rs nd node. rewrite E. cbn [bind]. unfold put_block. fold nb. rewrite Nat.eqb_refl. eexists. split; [reflexivity|]. intros v i V I. cbv beta.
    destruct (Nat.leb_spec (m * nb) (v * nb + i)), (Nat.ltb_spec (v * nb + i) (m * nb + nb)); cbn [andb].
    + assert (v = m) as -> by nia. replace (m * nb + i - m * nb)%nat with i by lia. rewrite O by exact I. reflexivity.
    + exfalso. nia.
    + apply IH; nia.
    + apply IH; nia.
  - rewrite E. exists r. split; [reflexivity|exact H].
Qed.

Lemma face_ok fuel a (s : bool) n_sample : (nd <= fuel)%nat -> (1 <= n_sample)%nat -> (2 <= nd)%nat -> (a < nd)%nat -> distinct rs node -> ends rs node (v_boundary d) ->
  exists out, face fuel d a s n_sample = Ok (n_sample ^ (nd - 1) * v_var d, out)%nat /\
  forall v i, (v < v_var d)%nat -> (i < n_sample ^ (nd - 1))%nat -> out (v * n_sample ^ (nd - 1) + i)%nat = through nd rs node (variable d v) (on_face_at a (Nat.b2n s) (block_point n_sample (nd - 1) i)).
Proof.
  intros F NS N2 A DI EN. unfold face. fold nd. set (nb := (n_sample ^ (nd - 1))%nat). set (body := fun (i_var : nat) (result : nat -> R) => _).
  destruct (ofold_seq body (fun m r => forall v i, (v < m)%nat -> (i < nb)%nat -> r (v * nb + i)%nat = through nd rs node (variable d v) (on_face_at a (Nat.b2n s) (block_point n_sample (nd - 1) i))) (v_var d) (fun _ => 0)) as (r & E & H).
  - intros; lia.
  - intros m r M IH. unfold body, n_qpoint. fold rs nd.
    unfold dimension_matvec at 1. cbn [rows cols entry]. destruct (Nat.eqb_spec (rs ^ (a + 1)) 0) as [X|_]; [exfalso; revert X; apply Nat.pow_nonzero; lia|]. cbn [bind].
    rewrite (columns nd rs a) by lia. rewrite Nat.mul_1_r. rewrite pow_div by lia. set (fq := fun p : nat => _).
    destruct (cube_ok fuel (nd - 1) n_sample rs node (lin_spaced n_sample) (interpolate rs node (lin_spaced n_sample)) fq) as (out & E & O); try assumption; try lia; [reflexivity|].
    unfold interp_mat. fold rs node. rewrite E. cbn [bind]. unfold put_block. fold nb. rewrite Nat.eqb_refl. eexists. split; [reflexivity|]. intros v i V I. cbv beta.
    destruct (Nat.leb_spec (m * nb) (v * nb + i)), (Nat.ltb_spec (v * nb + i) (m * nb + nb)); cbn [andb].
    + assert (v = m) as -> by nia. replace (m * nb + i - m * nb)%nat with i by lia. rewrite O by exact I. rewrite (through_row nd rs node _ _ a) by lia.
      apply through_ext.
      * intros f FF. unfold fq. rewrite ?Nat.mul_1_r. apply rsum_ext. intros j J. f_equal.
        -- rewrite (ends_lagrange rs node (v_boundary d) _ j DI EN) by (destruct s; cbn; lia). f_equal. unfold on_face_at. rewrite Nat.ltb_irrefl, Nat.eqb_refl. reflexivity.
        -- f_equal. unfold i_qpoint, nth_row. cbn. lia.
      * intros l L. symmetry. exact (on_face_skip a (Nat.b2n s) (block_point n_sample (nd - 1) i) l).
    + exfalso. nia.
    + apply IH; nia.
    + apply IH; nia.
  - rewrite E. exists r. split; [reflexivity|exact H].
Qed.

Lemma reduce_ok y : forall n var, exists out, reduce n rs (interpolate rs node y) (rs ^ n) var = Ok (1%nat, out) /\ out 0%nat = through n rs node var y.
Proof.
  clear ND.
  induction n as [|n IH]; intros var.
  - exists var. split; [reflexivity|]. unfold through. cbn. ring.
  - cbn [reduce]. unfold dimension_matvec. cbn [rows cols entry]. rewrite Nat.add_1_r. destruct (Nat.eqb_spec (rs ^ S n) 0) as [X|_]; [exfalso; revert X; apply Nat.pow_nonzero; lia|]. cbn [bind].
    rewrite Nat.div_same by (apply Nat.pow_nonzero; lia). rewrite Nat.mul_1_r, pow_div by lia. rewrite Nat.sub_succ, Nat.sub_0_r.
    match goal with |- context [reduce n rs _ _ ?f] => destruct (IH f) as (out & E & O) end. exists out. split; [exact E|]. rewrite O. rewrite through_last by lia. apply through_ext; [|reflexivity].
    intros q Q. rewrite ?Nat.mul_1_r, ?Nat.mul_1_l, ?Nat.div_1_r, ?Nat.mod_1_r. apply rsum_ext. intros j J. f_equal. f_equal. lia.
Qed.
Lemma sample_ok ref v i : sample d ref v i = Ok (through nd rs node (variable d v) (fun k => ref k i)).
Proof.
  clear ND.
  unfold sample, sample_entry. unfold n_qpoint. fold rs nd node. destruct (reduce_ok (fun k => ref k i) nd (fun q => v_vars d (v * rs ^ nd + q)%nat)) as (out & E & O). rewrite E. cbn [bind]. cbn [Nat.ltb Nat.leb]. rewrite O. reflexivity.
Qed.
End Vis.
