(** Proofs about [filter_limit]. *)
From Coq Require Import Reals List Arith Lia Lra.
From Verif Require Import Outcome RSum Quad_Model Quad_Spec Quad_Proofs2 Tensor_Model Tensor_Spec Row_Model Filter_Model Filter_Spec.
From Verif Require Tensor_Proofs Tensor_Thm Row_Proofs Smooth_Proofs1 Smooth_Proofs2.
Local Open Scope R_scope.

Lemma rprod_1 n f : (forall i, (i < n)%nat -> f i = 1) -> rprod n f = 1.
Proof. induction n as [|n IH]; intros H; cbn; [reflexivity|]. rewrite IH, H by (intros; try apply H; lia). ring. Qed.
Lemma rprod_0 n f k : (k < n)%nat -> f k = 0 -> rprod n f = 0.
Proof. induction n as [|n IH]; intros K Z; [lia|]. cbn. destruct (Nat.eq_dec k n) as [->|N]; [rewrite Z; ring|]. rewrite IH by (auto; lia). ring. Qed.
(** a sum over all numbers of products over their digits is a product of sums *)
Lemma rsum_digits b n : (0 < b)%nat -> forall f : nat -> nat -> R, rsum (b ^ n) (fun j => rprod n (fun k => f k (digit b n k j))) = rprod n (fun k => rsum b (f k)).
Proof.
  intros B. induction n as [|n IH]; intros f; [cbn; ring|]. rewrite rprod_shift. change (b ^ S n)%nat with (b * b ^ n)%nat. rewrite rsum_mult, <- (IH (fun k => f (S k))), <- rsum_scal_r.
  assert (P : (0 < b ^ n)%nat) by (apply Tensor_Proofs.pow_pos, B).
  apply rsum_ext. intros i I. rewrite <- rsum_scal. apply rsum_ext. intros q Q. rewrite rprod_shift. f_equal.
  - rewrite Tensor_Proofs.digit_0; [|exact B|cbn; nia]. f_equal. rewrite Nat.div_add_l by lia. rewrite Nat.div_small by exact Q. lia.
  - apply rprod_ext. intros k K. rewrite Tensor_Proofs.digit_S by assumption. f_equal. f_equal. rewrite Nat.add_comm, Nat.mod_add by lia. apply Nat.mod_small, Q.
Qed.
Lemma digit_lt b n k i : (0 < b)%nat -> (digit b n k i < b)%nat.
Proof. intros B. unfold digit. apply Nat.mod_upper_bound. lia. Qed.
(** a product of Kronecker symbols of the digits *)
Lemma delta_digits b n i j : (0 < b)%nat -> (i < b ^ n)%nat -> (j < b ^ n)%nat -> rprod n (fun k => if (digit b n k i =? digit b n k j)%nat then 1 else 0) = if (i =? j)%nat then 1 else 0.
Proof.
  intros B I J. destruct (Nat.eqb_spec i j) as [->|N].
  - apply rprod_1. intros k _. now rewrite Nat.eqb_refl.
  - destruct (Nat.eq_dec (length (filter (fun k => negb (digit b n k i =? digit b n k j)%nat) (seq 0 n))) 0) as [Z|Z].
    + exfalso. apply N. apply (Row_Proofs.digits_ext b n B i j I J). intros d D.
      destruct (Nat.eqb_spec (digit b n d i) (digit b n d j)) as [E|E]; [exact E|]. exfalso.
      apply length_zero_iff_nil in Z. assert (H : In d (filter (fun k => negb (digit b n k i =? digit b n k j)%nat) (seq 0 n))).
      { apply filter_In. split; [apply in_seq; lia|]. destruct (Nat.eqb_spec (digit b n d i) (digit b n d j)); [contradiction|reflexivity]. }
      rewrite Z in H. destruct H.
    + destruct (filter (fun k => negb (digit b n k i =? digit b n k j)%nat) (seq 0 n)) as [|k l] eqn:E; [contradiction|].
      assert (H : In k (filter (fun k => negb (digit b n k i =? digit b n k j)%nat) (seq 0 n))) by (rewrite E; now left).
      apply filter_In in H. destruct H as (S & H). apply in_seq in S. apply (rprod_0 n _ k); [lia|]. destruct (digit b n k i =? digit b n k j)%nat; [discriminate|reflexivity].
Qed.

Section Filter.
  Context (nd rs : nat) (node w : nat -> R) (ND : (1 <= nd)%nat) (RS : (2 <= rs)%nat) (L : as_lobatto rs node w).
  Let orth := py_legendre rs node w.
  Let N := (rs ^ nd)%nat.
  Let RS0 : (0 < rs)%nat. Proof. clear -RS. lia. Qed.
  Notation V := (mode_value nd rs orth).
  Notation W := (outer_power rs w nd).
  Notation C := (coefficient nd rs w orth).
  Lemma ortho m m' : (m < N)%nat -> (m' < N)%nat -> rsum N (fun q => W q * V m q * V m' q) = if (m =? m')%nat then 1 else 0.
  Proof using RS L RS0.
    intros M M'. transitivity (rsum N (fun q => rprod nd (fun k => (fun k i => w i * (orth (digit rs nd k m) i * orth (digit rs nd k m') i)) k (digit rs nd k q)))).
    - apply rsum_ext. intros q _. unfold outer_power, mode_value. rewrite <- !rprod_mult. apply rprod_ext. intros k _. ring.
    - unfold N. rewrite (rsum_digits rs nd RS0 (fun k i => w i * (orth (digit rs nd k m) i * orth (digit rs nd k m') i))).
      rewrite <- (delta_digits rs nd m m' RS0 M M'). apply rprod_ext. intros k _.
      apply (Smooth_Proofs1.modes_orthonormal rs node w L); apply digit_lt; exact RS0.
  Qed.
  Lemma complete1 i j : (i < rs)%nat -> (j < rs)%nat -> rsum rs (fun k => orth k i * (orth k j * w j)) = if (i =? j)%nat then 1 else 0.
  Proof using L.
    intros I J. rewrite (Smooth_Proofs1.modes_complete rs node w L (fun i => if (i =? j)%nat then 1 else 0) i I). fold orth. apply rsum_ext. intros k _. rewrite Rmult_comm. f_equal.
    unfold inner. rewrite (rsum_single rs j); [|exact J|].
    - rewrite Nat.eqb_refl. ring.
    - intros i' _ NE. destruct (Nat.eqb_spec i' j); [contradiction|ring].
  Qed.
  Lemma complete q q' : (q < N)%nat -> (q' < N)%nat -> rsum N (fun m => V m q * (V m q' * W q')) = if (q =? q')%nat then 1 else 0.
  Proof using RS L RS0.
    intros Q Q'. transitivity (rsum N (fun m => rprod nd (fun k => (fun k i => orth i (digit rs nd k q) * (orth i (digit rs nd k q') * w (digit rs nd k q'))) k (digit rs nd k m)))).
    - apply rsum_ext. intros m _. unfold outer_power, mode_value. rewrite <- !rprod_mult. reflexivity.
    - unfold N. rewrite (rsum_digits rs nd RS0 (fun k i => orth i (digit rs nd k q) * (orth i (digit rs nd k q') * w (digit rs nd k q')))).
      rewrite <- (delta_digits rs nd q q' RS0 Q Q'). apply rprod_ext. intros k _. apply complete1; apply digit_lt; exact RS0.
  Qed.
  Lemma coefficient_sum c m : (m < N)%nat -> C m (fun q => rsum N (fun m' => V m' q * c m')) = c m.
  Proof using RS L RS0.
    intros M. unfold coefficient, mean. fold N. transitivity (rsum N (fun m' => c m' * rsum N (fun q => W q * V m q * V m' q))).
    - transitivity (rsum N (fun q => rsum N (fun m' => c m' * (W q * V m q * V m' q)))).
      + apply rsum_ext. intros q _. rewrite <- !rsum_scal. apply rsum_ext. intros m' _. ring.
      + rewrite rsum_swap. apply rsum_ext. intros m' _. apply rsum_scal.
    - rewrite (rsum_single N m); [|exact M|].
      + rewrite ortho, Nat.eqb_refl by exact M. ring.
      + intros m' M' NE. rewrite ortho by assumption. destruct (Nat.eqb_spec m m'); [congruence|ring].
  Qed.
  Lemma expansion u q : (q < N)%nat -> rsum N (fun m => V m q * C m u) = u q.
  Proof using RS L RS0.
    intros Q. unfold coefficient, mean. fold N. transitivity (rsum N (fun q' => u q' * rsum N (fun m => V m q * (V m q' * W q')))).
    - transitivity (rsum N (fun m => rsum N (fun q' => u q' * (V m q * (V m q' * W q'))))).
      + apply rsum_ext. intros m _. rewrite <- rsum_scal. apply rsum_ext. intros q' _. ring.
      + rewrite rsum_swap. apply rsum_ext. intros q' _. apply rsum_scal.
    - rewrite (rsum_single N q); [|exact Q|].
      + rewrite complete, Nat.eqb_refl by exact Q. ring.
      + intros q' Q' NE. rewrite complete by assumption. destruct (Nat.eqb_spec q q'); [congruence|ring].
  Qed.
  Lemma parseval u : rsum N (fun m => C m u ^ 2) = mean nd rs w (fun q => u q ^ 2).
  Proof using RS L RS0.
    transitivity (rsum N (fun q => W q * u q * rsum N (fun m => V m q * C m u))).
    - transitivity (rsum N (fun m => rsum N (fun q => W q * u q * (V m q * C m u)))).
      + apply rsum_ext. intros m _. replace (C m u ^ 2) with (C m u * C m u) by ring. unfold coefficient at 1, mean. fold N. rewrite <- rsum_scal_r. apply rsum_ext. intros q _. ring.
      + rewrite rsum_swap. apply rsum_ext. intros q _. apply rsum_scal.
    - unfold mean. fold N. apply rsum_ext. intros q Q. rewrite expansion by exact Q. ring.
  Qed.
  Lemma total_degree m : total nd rs m = degree nd rs m.
  Proof.
    unfold total, degree. clear. assert (H : forall n, fold_left (fun t i_dim => t + (m / ri_stride (row_begin nd rs i_dim)) mod rs)%nat (seq 0 n) 0%nat = digit_sum rs nd n m).
    { induction n as [|n IH]; [reflexivity|]. rewrite seq_S, fold_left_app, IH. reflexivity. }
    apply H.
  Qed.
  Lemma run decay u : exists r, filter_limit nd rs w orth decay u = Ok r /\
    forall q, (q < N)%nat -> r q = rsum N (fun m => V m q * limit (norm nd rs w u) decay (degree nd rs m) (C m u)).
  Proof using ND RS L RS0.
    unfold filter_limit. fold N.
    destruct (Tensor_Thm.hypercube_matvec_kronecker (mk_mat rs rs (fun i j => orth i j * w j)) nd u (S nd)) as (modes & E & H); cbn [rows cols]; try lia. cbn [rows cols] in E, H. fold N in E, H.
    rewrite E. cbn [bind].
    assert (MC : forall m, (m < N)%nat -> modes m = C m u).
    { intros m M. rewrite H by exact M. unfold coefficient, mean. fold N. apply rsum_ext. intros q _. unfold kronecker_power, mode_value, outer_power. cbn [rows cols entry]. rewrite rprod_mult. ring. }
    set (nrm := sqrt (rsum N (fun i => modes i ^ 2))).
    assert (EN : nrm = norm nd rs w u). { unfold nrm, norm. f_equal. rewrite <- parseval. apply rsum_ext. intros m M. now rewrite MC. }
    destruct (Tensor_Thm.hypercube_matvec_kronecker (mk_mat rs rs (fun i j => orth j i)) nd (fun m => limit nrm decay (total nd rs m) (modes m)) (S nd)) as (r & E' & H'); cbn [rows cols]; try lia. cbn [rows cols] in E', H'. fold N in E', H'.
    rewrite E'. cbn [bind]. exists r. split; [reflexivity|]. intros q Q. rewrite H' by exact Q. apply rsum_ext. intros m M. rewrite MC, EN, total_degree by exact M. reflexivity.
  Qed.
  Lemma run_coefficient decay u r : filter_limit nd rs w orth decay u = Ok r -> forall m, (m < N)%nat -> C m r = limit (norm nd rs w u) decay (degree nd rs m) (C m u).
  Proof using ND RS L RS0.
    intros E m M. destruct (run decay u) as (r' & E' & H). rewrite E in E'. injection E' as <-.
    rewrite <- (coefficient_sum (fun m => limit (norm nd rs w u) decay (degree nd rs m) (C m u)) m M). unfold coefficient, mean. apply rsum_ext. intros q Q. rewrite H by exact Q. reflexivity.
  Qed.
  Lemma by_coefficients u v : (forall m, (m < N)%nat -> C m u = C m v) -> forall q, (q < N)%nat -> u q = v q.
  Proof using RS L RS0. intros H q Q. rewrite <- (expansion u q Q), <- (expansion v q Q). apply rsum_ext. intros m M. now rewrite H. Qed.
  Lemma norm_nonneg u : 0 <= norm nd rs w u. Proof. apply sqrt_pos. Qed.
  Lemma coefficient_bound u m : (m < N)%nat -> Rabs (C m u) <= norm nd rs w u.
  Proof using RS L RS0.
    intros M. unfold norm. rewrite <- parseval, <- sqrt_Rsqr_abs. apply sqrt_le_1_alt. replace (Rsqr (C m u)) with (C m u ^ 2) by (unfold Rsqr; ring).
    apply (rsum_ge_term N (fun m => C m u ^ 2)); [intros; apply pow2_ge_0|exact M].
  Qed.
  Lemma mode_0 q : V 0 q = 1.
  Proof using RS L RS0.
    unfold mode_value. apply rprod_1. intros k _. replace (digit rs nd k 0) with 0%nat by (unfold digit; rewrite Nat.div_0_l by (apply Nat.pow_nonzero; clear -RS0; lia); rewrite Nat.mod_0_l by (clear -RS0; lia); reflexivity).
    unfold orth. rewrite py_legendre_eq. assert (H : inner rs w (leg node 0) (leg node 0) = 1).
    { transitivity (rsum rs w); [unfold inner, leg; apply rsum_ext; intros; cbn; ring|].
      pose proof (Smooth_Proofs2.weights_sum_1 1 rs node w RS L) as S. rewrite Nat.pow_1_r in S. transitivity (rsum rs (outer_power rs w 1)); [|exact S]. apply rsum_ext. intros i I. unfold outer_power. cbn [rprod]. unfold digit. change (rs ^ (1 - 1 - 0))%nat with 1%nat. rewrite Nat.div_1_r, Nat.mod_small by exact I. ring. }
    rewrite H, sqrt_1. unfold leg. cbn. field.
  Qed.
  Lemma coefficient_0 u : C 0 u = mean nd rs w u.
  Proof using RS L RS0. unfold coefficient, mean. apply rsum_ext. intros q _. rewrite mode_0. ring. Qed.
  Lemma degree_0 : degree nd rs 0 = 0%nat.
  Proof using RS0.
    unfold degree. clear ND RS L N orth. assert (H : forall n, digit_sum rs nd n 0 = 0%nat); [|apply H]. induction n as [|n IH]; [reflexivity|]. cbn. rewrite IH. unfold digit. rewrite Nat.div_0_l by (apply Nat.pow_nonzero; lia). rewrite Nat.mod_0_l by lia. reflexivity.
  Qed.
  Lemma degree_pos m : (0 < m < N)%nat -> (0 < degree nd rs m)%nat.
  Proof using RS0.
    clear ND L orth. intros M. destruct (Nat.eq_dec (degree nd rs m) 0) as [Z|Z]; [|lia]. exfalso. assert (m = 0)%nat; [|lia].
    apply (Row_Proofs.digits_ext rs nd RS0); [exact (proj2 M)|apply Row_Proofs.pow_pos'; exact RS0|]. intros d D.
    replace (digit rs nd d 0) with 0%nat by (unfold digit; rewrite Nat.div_0_l by (apply Nat.pow_nonzero; clear -RS0; lia); rewrite Nat.mod_0_l by (clear -RS0; lia); reflexivity).
    unfold degree in Z. assert (H : forall n, digit_sum rs nd n m = 0%nat -> forall d, (d < n)%nat -> digit rs nd d m = 0%nat); [|exact (H nd Z d D)].
    clear. induction n as [|n IH]; intros Z d D; [lia|]. cbn in Z. destruct (Nat.eq_dec d n) as [->|NE]; [lia|]. apply IH; lia.
  Qed.
End Filter.

(** ** [limit] *)
Lemma limit_abs n d k c : 0 <= n -> 0 <= d -> Rabs (limit n d k c) = Rmin (Rabs c) (n * d ^ k).
Proof.
  intros N D. unfold limit. assert (T : 0 <= n * d ^ k) by (apply Rmult_le_pos; [exact N|apply pow_le, D]). destruct (Rlt_dec _ _) as [H|H].
  - rewrite Rmin_right by lra. rewrite Rabs_mult. unfold Rdiv. rewrite Rabs_mult, (Rabs_pos_eq _ T), Rabs_inv, Rabs_Rabsolu. field. lra.
  - rewrite Rmin_left by lra. reflexivity.
Qed.
Lemma limit_same n d k c : Rabs c <= n * d ^ k -> limit n d k c = c.
Proof. intros H. unfold limit. destruct (Rlt_dec _ _); [lra|reflexivity]. Qed.
Lemma limit_sign n d k c : 0 <= n -> 0 <= d -> 0 <= limit n d k c * c.
Proof.
  intros N D. unfold limit. assert (T : 0 <= n * d ^ k) by (apply Rmult_le_pos; [exact N|apply pow_le, D]). destruct (Rlt_dec _ _) as [H|H]; [|nra].
  assert (0 <= n * d ^ k / Rabs c) by (apply Rmult_le_pos; [exact T|apply Rlt_le, Rinv_0_lt_compat; lra]). nra.
Qed.
Lemma limit_scale n d k c a : 0 <= n -> 0 <= d -> limit (Rabs a * n) d k (a * c) = a * limit n d k c.
Proof.
  intros N D. unfold limit. assert (T : 0 <= n * d ^ k) by (apply Rmult_le_pos; [exact N|apply pow_le, D]). rewrite Rabs_mult, Rmult_assoc. destruct (Req_dec a 0) as [->|A].
  - rewrite Rabs_R0. destruct (Rlt_dec _ _), (Rlt_dec _ _); ring.
  - pose proof (Rabs_pos_lt a A) as P. destruct (Rlt_dec (Rabs a * _) _) as [H|H], (Rlt_dec (n * d ^ k) _) as [K|K]; try nra; try reflexivity.
    field. split; lra.
Qed.
