From Coq Require Import Reals ZArith List Bool Lia Lra Rsqrt_def.
From Verif Require Import Outcome Math_Model Math_Spec.
Import ListNotations.

Lemma in_int_fits x : in_int x = true <-> fits_int x.
Proof. unfold in_int, fits_int. rewrite andb_true_iff, Z.leb_le, Z.ltb_lt. lia. Qed.

Lemma chk_fits x : fits_int x -> chk x = Ok x.
Proof. intros H%in_int_fits. unfold chk. now rewrite H. Qed.
Lemma chk_unfit x : ~ fits_int x -> chk x = Ub.
Proof. intros H. unfold chk. destruct (in_int x) eqn:E; [|reflexivity]. now apply in_int_fits in E. Qed.

Lemma fits_dec x : fits_int x \/ ~ fits_int x.
Proof. unfold fits_int. lia. Qed.

(** if a power fits then so do all smaller powers *)
Lemma fits_smaller b n : (0 <= n)%Z -> fits_int (b ^ (n + 1)) -> fits_int (b ^ n).
Proof.
  intros Hn. rewrite Z.pow_add_r, Z.pow_1_r by lia. unfold fits_int. set (x := (b ^ n)%Z).
  destruct (Z.eq_dec b 0) as [->|].
  - intros _. unfold x. destruct (Z.eq_dec n 0) as [->|]; [cbn; lia|]. rewrite Z.pow_0_l by lia. lia.
  - destruct (Z.eq_dec b (-1)) as [->|].
    + intros _. unfold x. assert (Z.abs ((-1) ^ n) = 1)%Z by (rewrite Z.abs_pow; cbn [Z.abs]; apply Z.pow_1_l; lia). lia.
    + destruct (Z.eq_dec b 1) as [->|]; [lia|]. intros H. assert (2 <= b \/ b <= -2)%Z as [|] by lia; nia.
Qed.

Lemma pow_up_spec b k : forall j, fits_int (b ^ Z.of_nat j) ->
  pow_up k (b ^ Z.of_nat j) b = if in_int (b ^ Z.of_nat (j + k)) then Ok (b ^ Z.of_nat (j + k))%Z else Ub.
Proof.
  induction k as [|k IH]; intros j Hj; cbn [pow_up].
  - rewrite Nat.add_0_r. apply in_int_fits in Hj. now rewrite Hj.
  - assert (E : (b ^ Z.of_nat j * b)%Z = (b ^ Z.of_nat (S j))%Z).
    { rewrite Nat2Z.inj_succ, Z.pow_succ_r by lia. ring. }
    rewrite E. replace (j + S k)%nat with (S j + k)%nat by lia. destruct (fits_dec (b ^ Z.of_nat (S j))) as [F|F].
    + rewrite chk_fits by exact F. cbn [bind]. now apply IH.
    + rewrite chk_unfit by exact F. cbn [bind]. destruct (in_int (b ^ Z.of_nat (S j + k))) eqn:I; [|reflexivity].
      exfalso. apply F. apply in_int_fits in I. clear - I. induction k as [|k IH]; [now rewrite Nat.add_0_r in I|].
      apply IH. replace (Z.of_nat (S j + S k)) with (Z.of_nat (S j + k) + 1)%Z in I by lia. apply fits_smaller in I; [exact I|lia].
Qed.

Lemma pow_int_nonneg b e : (0 <= e)%Z -> (fits_int (b ^ e) -> pow_int b e = Ok (b ^ e)%Z) /\ (~ fits_int (b ^ e) -> pow_int b e = Ub).
Proof.
  intros He. unfold pow_int. pose proof (pow_up_spec b (Z.to_nat e) 0) as P. cbn [Z.of_nat Nat.add] in P.
  rewrite Z.pow_0_r, Z2Nat.id in P by lia. rewrite P; [|unfold fits_int; lia]. replace (Z.to_nat (- e)) with 0%nat by lia. split; intros H.
  - apply in_int_fits in H. now rewrite H.
  - destruct (in_int (b ^ e)) eqn:E; [now apply in_int_fits in E|reflexivity].
Qed.

Lemma pow_down_fix k r b : b <> 0%Z -> fits_int r -> (Z.quot r b = r)%Z -> pow_down k r b = Ok r.
Proof.
  intros Hb Hr E. induction k as [|k IH]; cbn [pow_down]; [reflexivity|]. apply Z.eqb_neq in Hb. rewrite Hb, E, chk_fits by exact Hr.
  cbn [bind]. exact IH.
Qed.

Lemma pow_int_neg b e : (e < 0)%Z -> pow_int b e = if (b =? 0)%Z then Ub else Ok (if (Z.abs b =? 1)%Z then b ^ (- e) else 0)%Z.
Proof.
  intros He. unfold pow_int. replace (Z.to_nat e) with 0%nat by lia. cbn [pow_up bind].
  destruct (Z.eqb_spec b 0) as [->|Hb].
  - destruct (Z.to_nat (- e)) eqn:E; [lia|]. reflexivity.
  - destruct (Z.eqb_spec (Z.abs b) 1) as [H1|H1].
    + assert (b = 1 \/ b = -1)%Z as [->| ->] by lia.
      * rewrite Z.pow_1_l by lia. apply pow_down_fix; [lia|unfold fits_int; lia|reflexivity].
      * assert (A : forall k s, (s = 1 \/ s = -1)%Z -> pow_down k s (-1) = Ok (s * (-1) ^ Z.of_nat k)%Z).
        { induction k as [|k IH]; intros s Hs; cbn [pow_down]; [cbn; f_equal; lia|]. cbn [Z.eqb].
          assert (Z.quot s (-1) = - s)%Z as -> by (destruct Hs as [->| ->]; reflexivity).
          rewrite chk_fits by (unfold fits_int; lia). cbn [bind]. rewrite IH by lia. f_equal. rewrite Nat2Z.inj_succ, Z.pow_succ_r by lia. ring. }
        rewrite A by now left. rewrite Z2Nat.id by lia. now rewrite Z.mul_1_l.
    + destruct (Z.to_nat (- e)) eqn:E; [lia|]. cbn [pow_down]. apply Z.eqb_neq in Hb. rewrite Hb.
      assert (Z.quot 1 b = 0)%Z as ->. { apply Z.eqb_neq in Hb. apply Z.quot_small_iff; lia. }
      rewrite chk_fits by (unfold fits_int; lia). cbn [bind]. apply pow_down_fix; [now apply Z.eqb_neq|unfold fits_int; lia|].
      apply Z.eqb_neq in Hb. now apply Z.quot_0_l.
Qed.

Lemma iter_mult b n : Nat.iter n (fun r => r * b)%R 1%R = (b ^ n)%R.
Proof. induction n as [|n IH]; [reflexivity|]. unfold Nat.iter in *. cbn [nat_rect pow]. rewrite IH. ring. Qed.
Lemma iter_div b n : b <> 0%R -> Nat.iter n (fun r => r / b)%R 1%R = (/ b ^ n)%R.
Proof.
  intros Hb. induction n as [|n IH]; [cbn; field|]. unfold Nat.iter in *. cbn [nat_rect pow]. rewrite IH.
  assert (b ^ n <> 0)%R by now apply pow_nonzero. field. auto.
Qed.

Lemma pow_real_spec b e : (0 <= e)%Z -> pow_real b e = (b ^ Z.to_nat e)%R /\ (b <> 0%R -> pow_real b (- e) = (/ b ^ Z.to_nat e)%R).
Proof.
  intros He. unfold pow_real. rewrite Z.opp_involutive. replace (Z.to_nat (- e)) with 0%nat by lia. split.
  - rewrite iter_mult. reflexivity.
  - intros Hb. change (Nat.iter 0 (fun r => r * b)%R 1%R) with 1%R. now apply iter_div.
Qed.

(** ** logarithm *)
Lemma log_loop_spec base arg : (2 <= base)%Z -> fits_int arg -> forall fuel k, (k + fuel = 33)%nat -> fits_int (base ^ Z.of_nat k) ->
  (forall m, (0 <= m < Z.of_nat k)%Z -> (base ^ m < arg)%Z) ->
  exists n, least_log base arg n /\ log_loop fuel (base ^ Z.of_nat k) (Z.of_nat k) base arg = if in_int (base ^ n) then Ok n else Ub.
Proof.
  intros Hb Ha. induction fuel as [|fuel IH]; intros k Hk Hf Hlt.
  - exfalso. assert (k = 33%nat) as -> by lia. change (Z.of_nat 33) with 33%Z in Hf.
    assert (B : (2 ^ 33 <= base ^ 33)%Z) by (apply Z.pow_le_mono_l; lia). unfold fits_int in Hf. revert B Hf. generalize (base ^ 33)%Z. clear. intros; lia.
  - cbn [log_loop]. destruct (Z.ltb_spec (base ^ Z.of_nat k) arg) as [L|L].
    + rewrite chk_fits by (unfold fits_int; lia). cbn [bind].
      assert (E : (base ^ Z.of_nat k * base)%Z = (base ^ Z.of_nat (S k))%Z) by (rewrite Nat2Z.inj_succ, Z.pow_succ_r by lia; ring).
      assert (Hlt' : forall m, (0 <= m < Z.of_nat (S k))%Z -> (base ^ m < arg)%Z).
      { intros m Hm. destruct (Z.eq_dec m (Z.of_nat k)) as [->|]; [exact L|]. apply Hlt. lia. }
      rewrite E. destruct (fits_dec (base ^ Z.of_nat (S k))) as [F|F].
      * rewrite chk_fits by exact F. cbn [bind]. replace (Z.of_nat k + 1)%Z with (Z.of_nat (S k)) by lia. apply IH; auto. lia.
      * rewrite chk_unfit by exact F. cbn [bind]. exists (Z.of_nat (S k)). assert (0 < base ^ Z.of_nat (S k))%Z by (apply Z.pow_pos_nonneg; lia).
        split; [|destruct (in_int _) eqn:I; [now apply in_int_fits in I|reflexivity]].
        split; [lia|]. split; [|exact Hlt']. unfold fits_int in *. lia.
    + exists (Z.of_nat k). split; [split; [lia|]; split; [lia|exact Hlt]|]. apply in_int_fits in Hf. now rewrite Hf.
Qed.

Lemma log_int_spec base arg : fits_int arg -> (2 <= base)%Z ->
  exists n, least_log base arg n /\ (fits_int (base ^ n) -> log_int base arg = Ok n) /\ (~ fits_int (base ^ n) -> log_int base arg = Ub).
Proof.
  intros Ha Hb. destruct (log_loop_spec base arg Hb Ha 33 0 eq_refl) as (n & Hn & E).
  - cbn. unfold fits_int. lia.
  - cbn. lia.
  - exists n. split; [exact Hn|]. unfold log_int. destruct (Z.leb_spec base 1); [lia|]. cbn [Z.of_nat] in E. rewrite Z.pow_0_r in E. rewrite E. split; intros H'.
    + apply in_int_fits in H'. now rewrite H'.
    + destruct (in_int (base ^ n)) eqn:I; [now apply in_int_fits in I|reflexivity].
Qed.

(** ** bisection *)
Local Open Scope R_scope.

Lemma bisect_step_spec (f : R -> R) b0 b1 : b0 <= b1 -> f b0 * f b1 <= 0 ->
  exists mid b0' b1', bisect_step (fun x => Some (f x)) b0 b1 (Some (f b0)) (Some (f b1)) = (mid, (b0', b1', Some (f b0'), Some (f b1'))) /\
      f b0' * f b1' <= 0 /\ b1' - b0' = (b1 - b0) / 2 /\ b0 <= b0' /\ b1' <= b1 /\ (mid = b0' \/ mid = b1').
Proof.
  intros Hb Hf. unfold bisect_step. cbn [nan_mult isnan nan_le0]. set (mid := (b0 + b1) / 2). exists mid.
  assert (mid = (b0 + b1) / 2) by reflexivity. clearbody mid.
  destruct (Rle_dec (f mid * f b0) 0) as [L|L].
  - exists b0, mid. split; [reflexivity|]. split; [lra|]. split; [lra|]. split; [lra|]. split; [lra|now right].
  - exists mid, b1. split; [reflexivity|]. split; [|split; [lra|]; split; [lra|]; split; [lra|now left]].
    destruct (Rle_dec (f mid * f b1) 0) as [|N]; [assumption|exfalso].
    assert (P : 0 < (f mid * f b0) * (f mid * f b1)) by (apply Rmult_lt_0_compat; lra).
    replace ((f mid * f b0) * (f mid * f b1)) with ((f mid * f mid) * (f b0 * f b1)) in P by ring.
    assert (0 <= f mid * f mid) by apply Rle_0_sqr. assert (0 <= f mid * f mid * - (f b0 * f b1)) by (apply Rmult_le_pos; lra). lra.
Qed.

Lemma bisect_loop_spec (f : R -> R) atol : 0 < atol -> continuity f -> forall k b0 b1, b0 <= b1 -> f b0 * f b1 <= 0 -> b1 - b0 <= atol * 2 ^ k ->
  exists x, (forall fuel, (S k <= fuel)%nat -> bisect_loop (fun x => Some (f x)) atol fuel b0 b1 (Some (f b0)) (Some (f b1)) = Ok x) /\
    b0 <= x <= b1 /\ exists z, f z = 0 /\ b0 <= z <= b1 /\ Rabs (x - z) <= atol.
Proof.
  intros At Cf. induction k as [|k IH]; intros b0 b1 Hb Hf Hw;
    destruct (bisect_step_spec f b0 b1 Hb Hf) as (mid & b0' & b1' & E & Hf' & Hw' & L0 & L1 & M).
  - exists mid. cbn [pow] in Hw. split; [|split; [destruct M; lra|]].
    + intros [|fuel] F; [lia|]. cbn [bisect_loop]. rewrite E. destruct (Rlt_dec atol (b1' - b0')); [lra|reflexivity].
    + destruct (IVT_cor f b0' b1' Cf ltac:(lra) Hf') as (z & Hz & Z0). exists z. repeat split; try lra. apply Rabs_le. destruct M; lra.
  - destruct (Rlt_dec atol (b1' - b0')) as [G|G].
    + destruct (IH b0' b1' ltac:(lra) Hf' ltac:(cbn [pow] in Hw; lra)) as (x & Hx & Bx & z & Z0 & Hz & A).
      exists x. split; [|split; [lra|]].
      * intros [|fuel] F; [lia|]. cbn [bisect_loop]. rewrite E. destruct (Rlt_dec atol (b1' - b0')); [|lra]. apply Hx. lia.
      * exists z. repeat split; auto; lra.
    + exists mid. split; [|split; [destruct M; lra|]].
      * intros [|fuel] F; [lia|]. cbn [bisect_loop]. rewrite E. destruct (Rlt_dec atol (b1' - b0')); [lra|reflexivity].
      * destruct (IVT_cor f b0' b1' Cf ltac:(lra) Hf') as (z & Hz & Z0). exists z. repeat split; try lra. apply Rabs_le. destruct M; lra.
Qed.

Lemma pow2_gt x : exists k, x < 2 ^ k.
Proof.
  destruct (Pow_x_infinity 2 ltac:(rewrite Rabs_right; lra) (x + 1)) as (k & Hk). exists k. specialize (Hk k (le_n k)).
  rewrite Rabs_right in Hk; [lra|]. apply Rle_ge, pow_le. lra.
Qed.

Lemma bisection_spec (f : R -> R) atol b0 b1 : 0 < atol -> continuity f -> b0 <= b1 ->
  (f b0 * f b1 <= 0 -> exists k x, (forall fuel, (k <= fuel)%nat -> bisection (fun x => Some (f x)) atol fuel b0 b1 = Ok x) /\
     b0 <= x <= b1 /\ exists z, f z = 0 /\ b0 <= z <= b1 /\ Rabs (x - z) <= atol) /\
  (0 < f b0 * f b1 -> forall fuel, bisection (fun x => Some (f x)) atol fuel b0 b1 = Throw).
Proof.
  intros At Cf Hb. split.
  - intros Hf. destruct (pow2_gt ((b1 - b0) / atol)) as (k & Hk).
    destruct (bisect_loop_spec f atol At Cf k b0 b1 Hb Hf) as (x & Hx & R).
    { apply (Rmult_lt_compat_l atol) in Hk; [|exact At]. replace (atol * ((b1 - b0) / atol)) with (b1 - b0) in Hk by (field; lra). lra. }
    exists (S k), x. split; [|exact R]. intros fuel F. unfold bisection. cbn [nan_mult nan_gt0 isnan andb].
    destruct (Rlt_dec 0 (f b0 * f b1)); [lra|]. now apply Hx.
  - intros Hf fuel. unfold bisection. cbn [nan_mult nan_gt0]. destruct (Rlt_dec 0 (f b0 * f b1)); [reflexivity|lra].
Qed.

(** Whatever the function does (including NaNs), the result lies in the bracket. *)
Lemma bisection_bracket (g : R -> option R) atol fuel b0 b1 x : b0 <= b1 -> bisection g atol fuel b0 b1 = Ok x -> b0 <= x <= b1.
Proof.
  intros Hb. unfold bisection. destruct (nan_gt0 _); [discriminate|]. destruct (isnan (g b0) && isnan (g b1)); [discriminate|].
  generalize (g b0), (g b1). revert b0 b1 Hb.
  induction fuel as [|fuel IH]; intros b0 b1 Hb f0 f1 E; [discriminate|]. cbn [bisect_loop bisect_step] in E.
  destruct (if isnan f1 then true else if isnan f0 then false else nan_le0 (nan_mult (g ((b0 + b1) / 2)) f0));
    (destruct (Rlt_dec atol _) in E; [apply IH in E; lra|injection E as <-; lra]).
Qed.

(** ** face numbering *)
Lemma stretched_spec n_dim ind stretch : (1 <= n_dim <= 3)%nat -> (ind < 2 ^ (n_dim - 1))%nat -> length stretch = 2%nat ->
  exists bits, bits_of n_dim ind bits /\ stretched_ind n_dim ind stretch = Ok (from_bits (unstretched bits stretch)).
Proof.
  intros Hn Hi Hs. destruct stretch as [|s0 [|s1 [|]]]; try discriminate.
  assert (n_dim = 1 \/ n_dim = 2 \/ n_dim = 3)%nat as [->|[->| ->]] by lia; cbn in Hi.
  - exists []. assert (ind = 0)%nat as -> by lia. split; [now split|reflexivity].
  - assert (ind = 0 \/ ind = 1)%nat as [->| ->] by lia; [exists [false]|exists [true]]; (split; [now split|]); destruct s0; reflexivity.
  - assert (ind = 0 \/ ind = 1 \/ ind = 2 \/ ind = 3)%nat as [->|[->|[->| ->]]] by lia;
      [exists [false; false]|exists [false; true]|exists [true; false]|exists [true; true]]; (split; [now split|]); destruct s0, s1; reflexivity.
Qed.

Lemma direction_spec n_dim i_face : (i_face < 2 * n_dim)%nat ->
  length (direction n_dim i_face) = n_dim /\
  nth (i_face / 2) (direction n_dim i_face) 0%Z = (if Nat.odd i_face then 1 else -1)%Z /\
  forall j, j <> (i_face / 2)%nat -> nth j (direction n_dim i_face) 0%Z = 0%Z.
Proof.
  intros H. unfold direction, direction3. assert (D : (i_face / 2 < n_dim)%nat) by (apply Nat.div_lt_upper_bound; lia).
  assert (N : forall (g : nat -> Z) j, nth j (map g (seq 0 n_dim)) 0%Z = if (j <? n_dim)%nat then g j else 0%Z).
  { intros g j. destruct (Nat.ltb_spec j n_dim).
    - rewrite (nth_indep _ 0%Z (g 0%nat)) by now rewrite map_length, seq_length. now rewrite map_nth, seq_nth.
    - apply nth_overflow. now rewrite map_length, seq_length. }
  split; [now rewrite map_length, seq_length|]. split.
  - rewrite N. apply Nat.ltb_lt in D. rewrite D, Nat.eqb_refl.
    rewrite <- Nat.bit0_mod, Nat.bit0_odd. destruct (Nat.odd i_face); reflexivity.
  - intros j Hj. rewrite N. apply Nat.eqb_neq in Hj. rewrite Hj. now destruct (j <? n_dim)%nat.
Qed.
