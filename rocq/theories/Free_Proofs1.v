(** Values of the kernels point by point. *)
From Coq Require Import Reals List Arith Lia Lra FunctionalExtensionality Permutation.
From Verif Require Import Outcome RSum Tensor_Spec Tensor_Proofs Row_Model Row_Spec Row_Proofs Connection_Model Basis_Spec Basis_Proofs Quad_Model Quad_Spec Quad_Proofs Spatial_Model Spatial_Spec Spatial_Proofs Spatial_Proofs2 Spatial_Proofs3 Spatial_Proofs4 Spatial_Proofs5 Free_Spec.
Import ListNotations.
Local Open Scope R_scope.

(** ** rows through a point *)
Lemma along_row nd rs d q i : along nd rs d q i = i_qpoint (nth_row nd rs d (foot nd rs d q)) i \/ (rs = 0)%nat.
Proof.
  destruct (Nat.eq_dec rs 0) as [->|R]; [now right|left]. unfold along, foot, i_qpoint, nth_row. cbn [i_outer i_inner ri_stride ri_row_size]. set (s := (rs ^ (nd - 1 - d))%nat).
  assert (S0 : (0 < s)%nat) by (apply pow_pos'; lia). rewrite flat_div, flat_mod by (apply Nat.mod_upper_bound; lia). reflexivity.
Qed.
Lemma foot_lt nd rs d q : (0 < rs)%nat -> (d < nd)%nat -> (q < rs ^ nd)%nat -> (foot nd rs d q < rs ^ (nd - 1))%nat.
Proof.
  intros R D Q. unfold foot. set (s := (rs ^ (nd - 1 - d))%nat). assert (S0 : (0 < s)%nat) by (apply pow_pos'; lia).
  assert (E : (rs ^ nd = rs ^ d * (s * rs))%nat) by (unfold s; rewrite (Nat.mul_comm _ rs), <- Nat.pow_succ_r', <- Nat.pow_add_r; f_equal; lia).
  assert (E' : (rs ^ (nd - 1) = rs ^ d * s)%nat) by (unfold s; rewrite <- Nat.pow_add_r; f_equal; lia).
  pose proof (Nat.mod_upper_bound q s ltac:(lia)). assert (Hd : (q / (s * rs) < rs ^ d)%nat) by (apply Nat.div_lt_upper_bound; nia). rewrite E'. nia.
Qed.
Lemma digit_lt rs nd d q : (0 < rs)%nat -> (digit rs nd d q < rs)%nat.
Proof. intros R. apply Nat.mod_upper_bound. lia. Qed.
Lemma own_row nd rs d q : (0 < rs)%nat -> (d < nd)%nat -> i_qpoint (nth_row nd rs d (foot nd rs d q)) (digit rs nd d q) = q.
Proof.
  intros R D. destruct (along_row nd rs d q (digit rs nd d q)) as [<-|]; [|lia]. unfold along, digit. set (s := (rs ^ (nd - 1 - d))%nat). assert (S0 : (0 < s)%nat) by (apply pow_pos'; lia).
  pose proof (Nat.div_mod q s ltac:(lia)) as E1. pose proof (Nat.div_mod (q / s) rs ltac:(lia)) as E2. rewrite Nat.div_div in E2 by lia. nia.
Qed.
(** writing every row of one dimension, with values that do not depend on what is there *)
Lemma rows_of_dim nd rs id n (w : row_index -> nat -> nat -> R) a v q : (0 < rs)%nat -> (id < nd)%nat -> (v < n)%nat -> (q < rs ^ nd)%nat ->
  for_rows nd rs id (fun ind a => put_row n rs (w ind) a ind 1) a (v * rs ^ nd + q)%nat = a (v * rs ^ nd + q)%nat + w (nth_row nd rs id (foot nd rs id q)) (digit rs nd id q) v.
Proof.
  intros R I V Q. rewrite for_rows_eq by lia. set (f := foot nd rs id q). assert (FL : (f < rs ^ (nd - 1))%nat) by now apply foot_lt. set (j := digit rs nd id q). assert (J : (j < rs)%nat) by now apply digit_lt.
  assert (QE : q = i_qpoint (nth_row nd rs id f) j) by (symmetry; now apply own_row).
  enough (H : forall p, (p <= rs ^ (nd - 1))%nat -> loop p (fun f => (fun ind a => put_row n rs (w ind) a ind 1) (nth_row nd rs id f)) a (v * rs ^ nd + q)%nat = if (f <? p)%nat then a (v * rs ^ nd + q)%nat + w (nth_row nd rs id f) j v else a (v * rs ^ nd + q)%nat).
  { rewrite (H (rs ^ (nd - 1))%nat) by lia. destruct (Nat.ltb_spec f (rs ^ (nd - 1))); [reflexivity|lia]. }
  induction p as [|p IH]; intros P; [reflexivity|]. rewrite loop_S. cbn beta. specialize (IH ltac:(lia)). destruct (Nat.eq_dec f p) as [E|E].
  - rewrite QE at 1. rewrite <- E. rewrite put_row_in by assumption. rewrite <- QE. rewrite Rmult_1_l. rewrite <- E in IH. rewrite IH.
    destruct (Nat.ltb_spec f f); [lia|]. destruct (Nat.ltb_spec f (S f)); [reflexivity|lia].
  - rewrite put_row_out with (nd := nd) (id := id) (f := p); try lia.
    + rewrite IH. destruct (Nat.ltb_spec f p), (Nat.ltb_spec f (S p)); try lia; reflexivity.
    + intros v' j' V' J' EE. apply flat_inj in EE; [|apply qpoint_lt; lia|exact Q]. destruct EE as [_ EE]. rewrite QE in EE. apply qpoint_inj in EE; lia.
Qed.
Lemma rows_total nd rs n (w : nat -> row_index -> nat -> nat -> R) a v q : (0 < rs)%nat -> (v < n)%nat -> (q < rs ^ nd)%nat ->
  loop nd (fun id => for_rows nd rs id (fun ind a => put_row n rs (w id ind) a ind 1)) a (v * rs ^ nd + q)%nat =
  a (v * rs ^ nd + q)%nat + rsum nd (fun id => w id (nth_row nd rs id (foot nd rs id q)) (digit rs nd id q) v).
Proof.
  intros R V Q. enough (H : forall p, (p <= nd)%nat -> loop p (fun id => for_rows nd rs id (fun ind a => put_row n rs (w id ind) a ind 1)) a (v * rs ^ nd + q)%nat =
    a (v * rs ^ nd + q)%nat + rsum p (fun id => w id (nth_row nd rs id (foot nd rs id q)) (digit rs nd id q) v)) by (apply H; lia).
  induction p as [|p IH]; intros P; [cbn; ring|]. rewrite loop_S. rewrite rows_of_dim by (try assumption; lia). rewrite IH by lia. cbn [rsum]. ring.
Qed.
(** the modal filter of nothing *)
Lemma filter_zero nd rs n b a v : (0 < rs)%nat -> (0 < nd)%nat -> (forall q, (q < rs ^ nd)%nat -> a (v * rs ^ nd + q)%nat = 0) ->
  forall q, (q < rs ^ nd)%nat -> apply_filter nd rs n b a (v * rs ^ nd + q)%nat = 0.
Proof.
  intros R N Z. unfold apply_filter. apply (loop_inv (fun _ a => forall q, (q < rs ^ nd)%nat -> a (v * rs ^ nd + q)%nat = 0)); [exact Z|]. intros id a' I Z'. rewrite for_rows_eq by lia.
  apply (loop_inv (fun _ a => forall q, (q < rs ^ nd)%nat -> a (v * rs ^ nd + q)%nat = 0)); [exact Z'|]. intros f a2 FL Z2 q Q.
  destruct (in_flat_qpoints nd rs id q R I Q) as (f' & j & F' & J & <-). destruct (Nat.lt_ge_cases v n) as [V|V]; [|rewrite (put_row_out nd rs id f R I FL); [apply Z2; now apply qpoint_lt|]; intros v' j' V' J' E; apply flat_inj in E; [lia|apply qpoint_lt; lia|exact Q]].
  destruct (Nat.eq_dec f' f) as [->|E].
  - rewrite put_row_in by assumption. unfold mat_mul, mat_vec. rewrite (rsum_ext rs _ (fun _ => 0)); [rewrite rsum_0; ring|]. intros i L. unfold get_row. rewrite ri_nq, Z2 by now apply qpoint_lt. ring.
  - rewrite (put_row_out nd rs id f R I FL); [apply Z2; exact Q|]. intros v' j' V' J' EE. apply flat_inj in EE; [|apply qpoint_lt; lia|exact Q]. destruct EE as [_ EE]. apply qpoint_inj in EE; lia.
Qed.

(** ** [Local] without diffusion and source *)
Lemma fill_value n nq (g : nat -> nat -> R) a v q : (v < n)%nat -> (q < nq)%nat ->
  loop nq (fun q => loop n (fun v e => put e (v * nq + q)%nat (g q v))) a (v * nq + q)%nat = g q v.
Proof.
  intros V Q. enough (H : forall p, (p <= nq)%nat -> (q < p)%nat -> loop p (fun q => loop n (fun v e => put e (v * nq + q)%nat (g q v))) a (v * nq + q)%nat = g q v) by (apply H; lia).
  induction p as [|p IH]; intros P L; [lia|]. rewrite loop_S. destruct (Nat.eq_dec q p) as [->|E].
  - rewrite (loop_put_in n (fun v => (v * nq + p)%nat) (fun v _ => g p v)); [reflexivity| |exact V]. intros i j _ _ X. apply flat_inj in X; lia.
  - rewrite (loop_put_out n (fun v => (v * nq + p)%nat) (fun v _ => g p v)); [apply IH; lia|]. intros i I X. apply flat_inj in X; lia.
Qed.
Lemma write_face_value nd rs eq b read faces id s v f : (0 < rs)%nat -> (id < nd)%nat -> (s < 2)%nat -> (v < n_extrap eq)%nat -> (f < rs ^ (nd - 1))%nat ->
  write_face nd rs eq b read faces (2 * id + s)%nat (v * rs ^ (nd - 1) + f)%nat =
  rsum rs (fun j => b_boundary b s j * fetch_extrap eq (at_point (rs ^ nd) read (i_qpoint (nth_row nd rs id f) j)) v).
Proof.
  intros R I S V FL. unfold write_face. set (ex := loop (rs ^ nd) _ _). change (loop nd _ faces) with (put_bounds nd rs (n_extrap eq) (fun _ ind => mat_mul rs (b_boundary b) (get_row ex ind)) faces).
  rewrite put_bounds_in by assumption. unfold mat_mul, mat_vec. apply rsum_ext. intros j J. f_equal. unfold get_row. rewrite ri_nq. unfold ex. apply (fill_value (n_extrap eq) (rs ^ nd) (fun q v => fetch_extrap eq (at_point (rs ^ nd) read q) v)); [exact V|now apply qpoint_lt].
Qed.
Lemma write_face_other nd rs eq b read faces i k : (0 < rs)%nat -> (0 < nd)%nat -> (2 * nd <= i)%nat -> write_face nd rs eq b read faces i k = faces i k.
Proof. intros R N H. unfold write_face. set (ex := loop (rs ^ nd) _ _). change (loop nd _ faces) with (put_bounds nd rs (n_extrap eq) (fun _ ind => mat_mul rs (b_boundary b) (get_row ex ind)) faces). apply put_bounds_out; auto. Qed.
Lemma derivative_ext n D B w f g h k i : (forall j, (j < n)%nat -> f j = g j) -> (forall s, (s < 2)%nat -> h s = k s) -> derivative n D B w f h i = derivative n D B w g k i.
Proof.
  intros FG HK. unfold derivative, mat_vec. f_equal; [apply rsum_ext; intros j J; now rewrite FG|]. apply rsum_ext. intros s S. rewrite HK by exact S. f_equal. f_equal. apply rsum_ext. intros j J. now rewrite FG.
Qed.
Lemma mat_vec_lin n M f g a i : mat_vec n M (fun j => f j + g j * a) i = mat_vec n M f i + mat_vec n M g i * a.
Proof. unfold mat_vec. rewrite (rsum_ext n _ (fun j => M i j * f j + a * (M i j * g j))) by (intros; ring). rewrite rsum_plus, rsum_scal. ring. Qed.
Lemma mat_vec_ext n M f g i : (forall j, (j < n)%nat -> f j = g j) -> mat_vec n M f i = mat_vec n M g i.
Proof. intros H. unfold mat_vec. apply rsum_ext. intros j J. now rewrite H. Qed.
Lemma derivative_lin n D B w f g h k a i : derivative n D B w (fun j => f j + g j * a) (fun s => h s + k s * a) i = derivative n D B w f h i + derivative n D B w g k i * a.
Proof.
  unfold derivative. rewrite mat_vec_lin. rewrite (mat_vec_ext 2 _ _ (fun s => (h s - mat_vec n B f s) + (k s - mat_vec n B g s) * a)) by (intros; rewrite mat_vec_lin; ring). rewrite mat_vec_lin. ring.
Qed.
Lemma derivative_sum n D B w m (c : nat -> R) (f h : nat -> nat -> R) i :
  derivative n D B w (fun j => rsum m (fun k => f k j * c k)) (fun s => rsum m (fun k => h k s * c k)) i = rsum m (fun k => derivative n D B w (f k) (h k) i * c k).
Proof.
  induction m as [|m IH]; [|cbn [rsum]; now rewrite derivative_lin, IH].
  cbn [rsum]. unfold derivative, mat_vec. cbn [rsum]. rewrite !(rsum_ext n (fun j => _ * 0) (fun _ => 0)) by (intros; ring). rewrite rsum_0. ring.
Qed.
Lemma along_lt nd rs d q i : (0 < rs)%nat -> (d < nd)%nat -> (q < rs ^ nd)%nat -> (i < rs)%nat -> (along nd rs d q i < rs ^ nd)%nat.
Proof. intros R D Q I. destruct (along_row nd rs d q i) as [->|]; [|lia]. apply qpoint_lt; try assumption. now apply foot_lt. Qed.
Lemma local_rate_value nd rs eq b stage e state faces vf v q : (0 < rs)%nat -> (0 < nd)%nat -> has_convection eq = true -> has_diffusion eq = false -> has_source eq = false -> (v < n_update eq)%nat -> (q < rs ^ nd)%nat ->
  fst (local_rate nd rs eq b stage false e state faces vf) (v * rs ^ nd + q)%nat =
  - rsum nd (fun d => derivative rs (b_diff b) (b_boundary b) (b_weight b) (fun i => flux_conv eq (at_point (rs ^ nd) state (along nd rs d q i)) (local_normal nd rs e (along nd rs d q i)) v d)
      (fun s => faces (2 * d + s)%nat (v * rs ^ (nd - 1) + foot nd rs d q)%nat) (digit rs nd d q)).
Proof.
  intros R N HC HD HS V Q. unfold local_rate. rewrite HD. unfold local_source. rewrite HS. cbn [andb]. rewrite local_residual_eq by assumption. rewrite HD. cbn [fst].
  set (w := fun id ind i v => - d_both rs b (get_row (local_flux nd rs eq e state id) ind) (get_bound faces ind) i v).
  transitivity (loop nd (fun id => for_rows nd rs id (fun ind rate => put_row (n_update eq) rs (w id ind) rate ind 1)) (fun _ => 0) (v * rs ^ nd + q)%nat).
  - apply (f_equal (fun a : arr => a (v * rs ^ nd + q)%nat)). apply loop_ext. intros id a I. unfold for_rows. apply (f_equal (fun g => fold_left g (rows_of nd rs id) a)). apply functional_extensionality. intros a'. apply functional_extensionality. intros ind. unfold diff_rate, conv_rate. now rewrite HC, HD.
  - rewrite rows_total by assumption. rewrite Rplus_0_l, <- rsum_opp. apply rsum_ext. intros d D. unfold w, d_both. f_equal. apply derivative_ext.
    + intros i I. unfold get_row. rewrite ri_nq. destruct (along_row nd rs d q i) as [<-|]; [|lia]. unfold local_flux. cbv zeta.
      rewrite flat_mod, flat_div by now apply along_lt. reflexivity.
    + intros s S. unfold get_bound. rewrite ri_nfq by lia. replace (ri_i_dim (nth_row nd rs d (foot nd rs d q)) * 2 + s)%nat with (2 * d + s)%nat by (cbn [nth_row ri_i_dim]; lia). f_equal.
Qed.

(** ** one element in uniform flow *)
(** constants go through interpolation *)
Definition unital (rs : nat) (b : basis) : Prop :=
  (forall s, (s < 2)%nat -> rsum rs (b_boundary b s) = 1) /\ (forall half i, (half < 2)%nat -> (i < rs)%nat -> rsum rs (b_prolong b half i) = 1).
Lemma basis_unital rs node w ratio : (0 < rs)%nat -> distinct rs node -> unital rs (basis_on rs node w ratio).
Proof.
  intros R D. split; cbn.
  - intros s S. unfold py_boundary. rewrite (rsum_ext rs _ (fun i => lagrange rs node i (INR s))) by (intros; now apply py_interpolate_eq). now apply lagrange_sum.
  - intros half i H I. unfold py_prolong. erewrite rsum_ext; [|intros j J; now apply py_interpolate_eq]. now apply lagrange_sum.
Qed.
Section Element.
Variables (nd rs : nat) (eq : pde) (b : basis) (n : nat) (u ue : nat -> R) (f : nat -> nat -> R).
Hypotheses (R : (0 < rs)%nat) (N : (0 < nd)%nat) (U : unital rs b) (C : carried nd eq n u ue f) (A : additive eq) (HC : has_convection eq = true) (HD : has_diffusion eq = false) (HS : has_source eq = false).
Lemma at_filled n' nq (w : nat -> Rdefinitions.R) a q : filled n' nq w a -> (q < nq)%nat -> agrees n' (at_point nq a q) w.
Proof. intros F Q v V. apply F; assumption. Qed.
Lemma rate_zero stage uf e state faces vf fn : closed_element nd rs b e fn -> filled n (rs ^ nd) u state ->
  (forall k v q, (k < 2 * nd)%nat -> (v < n_update eq)%nat -> (q < rs ^ (nd - 1))%nat -> faces k (v * rs ^ (nd - 1) + q)%nat = rsum nd (fun j => fn k (j * rs ^ (nd - 1) + q)%nat * f j v)) ->
  forall v q, (v < n_update eq)%nat -> (q < rs ^ nd)%nat -> fst (local_rate nd rs eq b stage uf e state faces vf) (v * rs ^ nd + q)%nat = 0.
Proof.
  intros CL FI FA v q V Q.
  assert (Z : forall q, (q < rs ^ nd)%nat -> fst (local_rate nd rs eq b stage false e state faces vf) (v * rs ^ nd + q)%nat = 0).
  { clear q Q. intros q Q. rewrite local_rate_value by assumption.
    rewrite (rsum_ext nd _ (fun d => rsum nd (fun j => derivative rs (b_diff b) (b_boundary b) (b_weight b) (fun i => local_normal nd rs e (along nd rs d q i) j d) (fun s => fn (2 * d + s)%nat (j * rs ^ (nd - 1) + foot nd rs d q)%nat) (digit rs nd d q) * f j v))).
    - rewrite rsum_swap. rewrite (rsum_ext nd _ (fun _ => 0)); [rewrite rsum_0; ring|]. intros j J. rewrite rsum_scal_r. rewrite (CL j q J Q). ring.
    - intros d D. rewrite <- derivative_sum. apply derivative_ext.
      + intros i I. apply (ca_flux _ _ _ _ _ _ C); try assumption. apply at_filled; [exact FI|now apply along_lt].
      + intros s S. apply FA; [lia|exact V|now apply foot_lt]. }
  destruct uf; [|now apply Z]. unfold local_rate in *. destruct (local_residual _ _ _ _ _ _ _ _) as [r vf']. cbn [fst] in *. now apply filter_zero.
Qed.
Lemma split_index nq k : (0 < nq)%nat -> k = (k / nq * nq + k mod nq)%nat. Proof. intros P. pose proof (Nat.div_mod k nq). lia. Qed.
Lemma write_face_filled state faces k : filled n (rs ^ nd) u state -> (k < 2 * nd)%nat -> filled (n_extrap eq) (rs ^ (nd - 1)) ue (write_face nd rs eq b state faces k).
Proof.
  intros FI K v q V Q. replace k with (2 * (k / 2) + k mod 2)%nat by (pose proof (Nat.div_mod k 2); lia).
  assert (k / 2 < nd)%nat by (apply Nat.div_lt_upper_bound; lia). pose proof (Nat.mod_upper_bound k 2 ltac:(lia)). rewrite write_face_value by assumption.
  rewrite (rsum_ext rs _ (fun j => ue v * b_boundary b (k mod 2) j)); [rewrite rsum_scal, (proj1 U) by assumption; ring|].
  intros j J. rewrite (ca_extrap _ _ _ _ _ _ C _ (at_filled _ _ _ _ _ FI (qpoint_lt nd rs _ q j R H Q J)) v V). ring.
Qed.
Lemma local_uniform dt (stage cr uf : bool) e state ref faces vf fn : closed_element nd rs b e fn -> filled n (rs ^ nd) u state ->
  (forall k v q, (k < 2 * nd)%nat -> (v < n_update eq)%nat -> (q < rs ^ (nd - 1))%nat -> faces k (v * rs ^ (nd - 1) + q)%nat = rsum nd (fun j => fn k (j * rs ^ (nd - 1) + q)%nat * f j v)) ->
  (stage = true -> filled (n_update eq) (rs ^ nd) (fun _ => 0) ref) ->
  let o := local nd rs eq b dt stage cr uf e state ref faces vf in
  fst (fst o) = state /\ filled (n_update eq) (rs ^ nd) (fun _ => 0) (snd (fst o)) /\ forall k, (k < 2 * nd)%nat -> filled (n_extrap eq) (rs ^ (nd - 1)) ue (fst (snd o) k).
Proof.
  intros CL FI FA RF o. unfold o. rewrite local_eq. pose proof (rate_zero stage uf e state faces vf fn CL FI FA) as Z.
  destruct (local_rate _ _ _ _ _ _ _ _ _ _) as [rate vf']. cbn [fst] in Z. set (update := if stage then _ else _).
  pose proof (local_write_values nd rs eq e update stage cr rate state ref R A) as W. cbv zeta in W. destruct (local_write _ _ _ _ _ _ _ _ _) as [state' ref']. cbn [fst snd] in W |- *. destruct W as [W1 W2].
  assert (NQ : (0 < rs ^ nd)%nat) by now apply pow_pos'.
  assert (RZ : forall v q, (v < n_update eq)%nat -> (q < rs ^ nd)%nat -> the_rate (rs ^ nd) eq stage rate ref v q = 0).
  { intros v q V Q. unfold the_rate. rewrite HD, HS. cbn [orb]. rewrite Z by assumption. destruct stage; [rewrite RF by (reflexivity || assumption)|]; ring. }
  assert (S' : state' = state).
  { apply functional_extensionality. intros k. rewrite (split_index (rs ^ nd) k NQ). pose proof (Nat.mod_upper_bound k (rs ^ nd) ltac:(lia)) as M. destruct (Nat.lt_ge_cases (k / rs ^ nd) (n_update eq)) as [V|V].
    - rewrite (proj1 (W1 _ _ M V)). destruct cr; [ring|]. rewrite RZ by assumption. ring.
    - apply W2. now rewrite flat_div. }
  split; [exact S'|]. split.
  - intros v q V Q. rewrite (proj2 (W1 q v Q V)). unfold the_ref. rewrite RZ, HC by assumption. destruct cr; [ring|]. destruct stage; [now apply RF|now apply Z].
  - rewrite HD, S'. intros k K. now apply write_face_filled.
Qed.
End Element.
