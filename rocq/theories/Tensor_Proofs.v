From Coq Require Import Reals List Arith Lia Lra.
From Verif Require Import Outcome RSum Tensor_Model Tensor_Spec.
Local Open Scope R_scope.

Lemma pow_pos b n : (0 < b)%nat -> (0 < b ^ n)%nat.
Proof. intros. apply Nat.neq_0_lt_0, Nat.pow_nonzero. lia. Qed.

Lemma digit_0 b n i : (0 < b)%nat -> (i < b ^ S n)%nat -> digit b (S n) 0 i = (i / b ^ n)%nat.
Proof.
  intros Hb Hi. unfold digit. replace (S n - 1 - 0)%nat with n by lia. apply Nat.mod_small. pose proof (pow_pos b n Hb).
  apply Nat.div_lt_upper_bound; [lia|]. now rewrite Nat.mul_comm.
Qed.

Lemma digit_S b n k i : (0 < b)%nat -> (k < n)%nat -> digit b (S n) (S k) i = digit b n k (i mod b ^ n).
Proof.
  intros Hb Hk. unfold digit. replace (S n - 1 - S k)%nat with (n - 1 - k)%nat by lia. set (m := (n - 1 - k)%nat).
  assert (E : (b ^ n = b ^ m * (b * b ^ k))%nat).
  { rewrite <- Nat.pow_succ_r', <- Nat.pow_add_r. f_equal. unfold m. lia. }
  rewrite E. pose proof (pow_pos b m Hb). pose proof (pow_pos b k Hb).
  rewrite Nat.mod_mul_r by nia. rewrite (Nat.mul_comm (b ^ m)), Nat.div_add by lia.
  rewrite (Nat.div_small (i mod b ^ m)) by (apply Nat.mod_upper_bound; lia). cbn [Nat.add].
  rewrite Nat.mod_mul_r by nia. rewrite (Nat.mul_comm b), Nat.mod_add by lia. now rewrite Nat.mod_mod by lia.
Qed.

Lemma kron_S m n i j : (0 < rows m)%nat -> (0 < cols m)%nat -> (i < rows m ^ S n)%nat -> (j < cols m ^ S n)%nat ->
  kronecker_power m (S n) i j = entry m (i / rows m ^ n) (j / cols m ^ n) * kronecker_power m n (i mod rows m ^ n) (j mod cols m ^ n).
Proof.
  intros Hr Hc Hi Hj. unfold kronecker_power. rewrite rprod_shift, !digit_0 by auto. f_equal.
  apply rprod_ext. intros k Hk. now rewrite !digit_S.
Qed.

Lemma kron_1 m i j : (i < rows m)%nat -> (j < cols m)%nat -> kronecker_power m 1 i j = entry m i j.
Proof.
  intros Hi Hj. rewrite kron_S by (rewrite ?Nat.pow_1_r; lia). cbn [Nat.pow kronecker_power rprod]. rewrite !Nat.div_1_r. unfold kronecker_power. cbn. ring.
Qed.

Lemma prod_size_spec m n : (2 <= cols m)%nat -> forall p fuel, (n < fuel)%nat -> prod_size_loop fuel m p (cols m ^ n) = Ok (p * rows m ^ n)%nat.
Proof.
  intros Hc. induction n as [|n IH]; intros p [|fuel] Hf; try lia; cbn [prod_size_loop].
  - cbn [Nat.pow]. rewrite Nat.mul_1_r. reflexivity.
  - assert (1 < cols m ^ S n)%nat as L. { pose proof (pow_pos (cols m) n ltac:(lia)). cbn [Nat.pow]. nia. }
    apply Nat.ltb_lt in L. rewrite L. replace (cols m ^ S n / cols m)%nat with (cols m ^ n)%nat.
    + rewrite IH by lia. f_equal. cbn [Nat.pow]. ring.
    + cbn [Nat.pow]. rewrite Nat.mul_comm, Nat.div_mul by lia. reflexivity.
Qed.

Lemma collect_spec hm row_size vrs (v : nat -> R) (F : (nat -> R) -> nat -> R) : (0 < row_size)%nat ->
  (forall w, hm w = Ok (row_size, F w)) ->
  forall n, exists fact, collect n hm row_size vrs v = Ok fact /\
    forall a k, (a < n)%nat -> (k < row_size)%nat -> fact (k + a * row_size)%nat = F (fun q => v (a * vrs + q)%nat) k.
Proof.
  intros Hr Hh. induction n as [|n (fact & E & IH)]; [eexists; split; [reflexivity|intros; lia]|].
  cbn [collect]. rewrite E. cbn [bind]. rewrite Hh. cbn [bind]. rewrite Nat.eqb_refl. eexists. split; [reflexivity|].
  intros a k Ha Hk. cbv beta. rewrite Nat.div_add, Nat.mod_add by lia. rewrite (Nat.div_small k) by exact Hk. rewrite (Nat.mod_small k) by exact Hk. cbn [Nat.add].
  destruct (Nat.eqb_spec a n) as [->|]; [reflexivity|]. apply IH; lia.
Qed.

Lemma hypercube_spec m : (0 < rows m)%nat -> (0 < cols m)%nat -> forall n, (n = 0%nat \/ 2 <= cols m)%nat ->
  forall fuel, (n < fuel)%nat -> exists F, (forall v, hypercube_matvec fuel m (cols m ^ S n) v = Ok (rows m ^ S n, F v)%nat) /\
  forall v i, (i < rows m ^ S n)%nat -> F v i = rsum (cols m ^ S n) (fun j => kronecker_power m (S n) i j * v j).
Proof.
  intros Hr Hc. induction n as [|n IH]; intros Hn [|fuel] Hf; try lia; cbn [hypercube_matvec].
  - assert ((cols m =? 0)%nat = false) as -> by (apply Nat.eqb_neq; lia). rewrite Nat.pow_1_r, Nat.div_same by lia. cbn [Nat.eqb].
    exists (fun v => matvec m v). split; [intros; now rewrite Nat.pow_1_r|]. intros v i Hi. rewrite Nat.pow_1_r in Hi. unfold matvec.
    apply rsum_ext. intros j Hj. now rewrite kron_1.
  - assert (2 <= cols m)%nat as C2 by lia. assert ((cols m =? 0)%nat = false) as -> by (apply Nat.eqb_neq; lia).
    assert ((rows m =? 0)%nat = false) as R0 by (apply Nat.eqb_neq; lia). set (c := cols m) in *. set (r := rows m) in *.
    assert (Ediv : (c ^ S (S n) / c = c ^ S n)%nat) by (rewrite (Nat.pow_succ_r' c (S n)), Nat.mul_comm, Nat.div_mul by lia; reflexivity).
    rewrite Ediv. assert (P2 : (2 <= c ^ S n)%nat) by (cbn [Nat.pow]; pose proof (pow_pos c n ltac:(lia)); nia).
    assert ((c ^ S n =? 1)%nat = false) as -> by (apply Nat.eqb_neq; lia).
    assert (PS : prod_size_loop (S (c ^ S (S n))) m 1 (c ^ S (S n)) = Ok (r ^ S (S n))%nat).
    { unfold c, r. rewrite prod_size_spec; [now rewrite Nat.mul_1_l|exact C2|]. apply Nat.lt_succ_r, Nat.lt_le_incl, Nat.pow_gt_lin_r. lia. }
    rewrite PS. cbn [bind]. rewrite R0.
    assert (Erow : (r ^ S (S n) / r = r ^ S n)%nat) by (rewrite (Nat.pow_succ_r' r (S n)), Nat.mul_comm, Nat.div_mul by lia; reflexivity).
    rewrite Erow. pose proof (pow_pos r (S n) Hr) as Pr.
    destruct (IH (or_intror C2) fuel ltac:(lia)) as (F & HF & SF).
    set (fact := fun v => match collect c (hypercube_matvec fuel m (c ^ S n)) (r ^ S n) (c ^ S n) v with Ok f => f | _ => fun _ => 0 end).
    assert (HC : forall v, collect c (hypercube_matvec fuel m (c ^ S n)) (r ^ S n) (c ^ S n) v = Ok (fact v) /\
      forall a k, (a < c)%nat -> (k < r ^ S n)%nat -> fact v (k + a * r ^ S n)%nat = F (fun q => v (a * c ^ S n + q)%nat) k).
    { intros v. destruct (collect_spec (hypercube_matvec fuel m (c ^ S n)) (r ^ S n) (c ^ S n) v F Pr HF c) as (fc & E & H).
      unfold fact. rewrite E. split; [reflexivity|exact H]. }
    exists (fun v k => matvec m (fun j => fact v (k mod r ^ S n + j * r ^ S n)%nat) (k / r ^ S n)%nat). split.
    + intros v. destruct (HC v) as (-> & _). reflexivity.
    + intros v i Hi. unfold matvec. fold c. rewrite (Nat.pow_succ_r' c (S n)), rsum_mult. apply rsum_ext. intros j Hj.
      destruct (HC v) as (_ & Hfact). rewrite Hfact; [|exact Hj|apply Nat.mod_upper_bound; lia].
      rewrite SF by (apply Nat.mod_upper_bound; lia). rewrite <- rsum_scal. apply rsum_ext. intros j' Hj'.
      assert (Hjj : (j * c ^ S n + j' < c ^ S (S n))%nat) by (rewrite (Nat.pow_succ_r' c (S n)); nia).
      rewrite (kron_S m (S n) i (j * c ^ S n + j')) by (auto; fold c; lia). fold c r.
      replace ((j * c ^ S n + j') / c ^ S n)%nat with j; [replace ((j * c ^ S n + j') mod c ^ S n)%nat with j'|].
      * ring.
      * rewrite Nat.add_comm, Nat.mod_add by lia. now rewrite Nat.mod_small.
      * rewrite Nat.add_comm, Nat.div_add by lia. now rewrite Nat.div_small.
Qed.

Lemma hypercube_main m n v fuel : (0 < rows m)%nat -> (0 < cols m)%nat -> (1 <= n)%nat -> (n = 1 \/ 2 <= cols m)%nat -> (n <= fuel)%nat ->
  exists out, hypercube_matvec fuel m (cols m ^ n) v = Ok (rows m ^ n, out)%nat /\
  forall i, (i < rows m ^ n)%nat -> out i = rsum (cols m ^ n) (fun j => kronecker_power m n i j * v j).
Proof.
  intros Hr Hc Hn Hn' Hf. destruct n as [|n]; [lia|]. destruct (hypercube_spec m Hr Hc n ltac:(lia) fuel ltac:(lia)) as (F & HF & SF).
  exists (F v). split; [apply HF|apply SF].
Qed.

Lemma pow_outer_main size v n fuel : (0 < size)%nat -> (n <= fuel)%nat ->
  exists out, pow_outer fuel size v n = Ok (size ^ n, out)%nat /\ forall i, (i < size ^ n)%nat -> out i = outer_power size v n i.
Proof.
  intros Hs Hf. unfold pow_outer. destruct n as [|n].
  - eexists. split; [reflexivity|]. intros i Hi. reflexivity.
  - set (m := mk_mat size 2 (fun i j => if (j =? 0)%nat then v i else 0)).
    destruct (hypercube_main m (S n) (fun i => if (i =? 0)%nat then 1 else 0) fuel) as (out & E & H); cbn [m rows cols]; try lia.
    exists out. split; [exact E|]. intros i Hi. rewrite H by exact Hi. cbn [m rows cols].
    pose proof (pow_pos 2 (S n) ltac:(lia)).
    rewrite (rsum_single _ 0); [|lia|].
    + cbn [Nat.eqb]. rewrite Rmult_1_r. unfold kronecker_power, outer_power. apply rprod_ext. intros k Hk. cbn [m entry rows cols].
      assert (digit 2 (S n) k 0 = 0)%nat as ->. { unfold digit. rewrite Nat.div_0_l by (apply Nat.pow_nonzero; lia). reflexivity. }
      reflexivity.
    + intros j Hj Hj0. apply Nat.eqb_neq in Hj0. rewrite Hj0. ring.
Qed.

Lemma dimension_main m v i_dim n_cols : (0 < rows m)%nat -> (0 < cols m)%nat -> (0 < n_cols)%nat ->
  exists out, dimension_matvec m (cols m ^ (i_dim + 1) * n_cols) v i_dim = Ok (cols m ^ i_dim * rows m * n_cols, out)%nat /\
  forall o a k, (o < cols m ^ i_dim)%nat -> (a < rows m)%nat -> (k < n_cols)%nat ->
    out ((o * rows m + a) * n_cols + k)%nat = rsum (cols m) (fun j => entry m a j * v ((o * cols m + j) * n_cols + k)%nat).
Proof.
  intros Hr Hc Hk. unfold dimension_matvec. set (c := cols m). set (r := rows m) in *.
  pose proof (pow_pos c (i_dim + 1) Hc). pose proof (pow_pos c i_dim Hc).
  assert ((c ^ (i_dim + 1) =? 0)%nat = false) as -> by (apply Nat.eqb_neq; lia).
  assert ((c ^ (i_dim + 1) * n_cols / c ^ (i_dim + 1) = n_cols)%nat) as -> by (rewrite Nat.mul_comm, Nat.div_mul; lia).
  assert ((c ^ (i_dim + 1) * n_cols * r / c = c ^ i_dim * r * n_cols)%nat) as ->.
  { rewrite Nat.add_1_r, Nat.pow_succ_r'. replace (c * c ^ i_dim * n_cols * r)%nat with (c ^ i_dim * r * n_cols * c)%nat by ring.
    apply Nat.div_mul. lia. }
  eexists. split; [reflexivity|].
  intros o a k Ho Ha Hk'. cbv beta zeta. apply rsum_ext. intros j Hj.
    assert (E1 : (((o * r + a) * n_cols + k) / (n_cols * r) = o)%nat).
    { replace ((o * r + a) * n_cols + k)%nat with ((a * n_cols + k) + o * (n_cols * r))%nat by ring. rewrite Nat.div_add by nia. rewrite Nat.div_small; [lia|nia]. }
    assert (E2 : (((o * r + a) * n_cols + k) / n_cols = o * r + a)%nat) by (rewrite Nat.add_comm, Nat.div_add by lia; rewrite Nat.div_small; lia).
    assert (E3 : (((o * r + a) * n_cols + k) mod n_cols = k)%nat) by (rewrite Nat.add_comm, Nat.mod_add by lia; now apply Nat.mod_small).
    rewrite E1, E2, E3. rewrite (Nat.add_comm (o * r) a), Nat.mod_add, Nat.mod_small by lia. f_equal. f_equal. ring.
Qed.

(** ** interpolation *)
Lemma interp_inner_spec x s values n : (n <= s)%nat -> forall k, interp_inner n x s values k =
  if (k <? n)%nat then values k + x * (values (k + s)%nat - values k) else values k.
Proof.
  intros Hn. induction n as [|n IH]; intros k; [reflexivity|]. cbn [interp_inner].
  destruct (Nat.eqb_spec k n) as [->|Hk].
  - rewrite !IH by lia. rewrite Nat.ltb_irrefl. assert ((n + s <? n)%nat = false) as -> by (apply Nat.ltb_ge; lia).
    assert ((n <? S n)%nat = true) as -> by (apply Nat.ltb_lt; lia). reflexivity.
  - rewrite IH by lia. destruct (Nat.ltb_spec k n), (Nat.ltb_spec k (S n)); try lia; reflexivity.
Qed.

Lemma weight_S n x i : (i < 2 ^ S n)%nat -> vertex_weight (S n) x i =
  (if (i / 2 ^ n =? 1)%nat then x 0%nat else 1 - x 0%nat) * vertex_weight n (fun k => x (S k)) (i mod 2 ^ n).
Proof.
  intros Hi. unfold vertex_weight. rewrite rprod_shift, digit_0 by (auto; lia). f_equal. apply rprod_ext. intros k Hk. now rewrite digit_S by lia.
Qed.

Lemma multilinear_S n values x : multilinear (S n) values x =
  multilinear n (fun i => values i + x 0%nat * (values (i + 2 ^ n)%nat - values i)) (fun k => x (S k)).
Proof.
  unfold multilinear. replace (2 ^ S n)%nat with (2 ^ n + 2 ^ n)%nat by (cbn [Nat.pow]; lia). rewrite rsum_app, <- rsum_plus.
  apply rsum_ext. intros i Hi. assert (2 ^ n <> 0)%nat by lia. rewrite !weight_S by (cbn [Nat.pow]; lia).
  replace (2 ^ n + i)%nat with (i + 1 * 2 ^ n)%nat by lia. rewrite Nat.div_add, Nat.mod_add by lia. rewrite !Nat.div_small, !Nat.mod_small by lia.
  cbn [Nat.add Nat.eqb]. rewrite Nat.mul_1_l. ring.
Qed.

Lemma multilinear_ext n values values' x x' : (forall i, (i < 2 ^ n)%nat -> values i = values' i) -> (forall k, (k < n)%nat -> x k = x' k) -> multilinear n values x = multilinear n values' x'.
Proof.
  intros Hv Hx. unfold multilinear. apply rsum_ext. intros i Hi. rewrite Hv by auto. f_equal. unfold vertex_weight. apply rprod_ext. intros k Hk. now rewrite Hx.
Qed.

Lemma interp_outer_spec coords n : forall i_dim values, interp_outer n i_dim (2 ^ n) coords values 0%nat = multilinear n values (fun k => coords (i_dim + k)%nat).
Proof.
  induction n as [|n IH]; intros i_dim values; cbn [interp_outer].
  - unfold multilinear, vertex_weight. cbn. ring.
  - assert (2 ^ S n / 2 = 2 ^ n)%nat as -> by (rewrite Nat.pow_succ_r', Nat.mul_comm, Nat.div_mul; lia).
    rewrite IH, multilinear_S. apply multilinear_ext.
    + intros i Hi. rewrite interp_inner_spec by lia. apply Nat.ltb_lt in Hi. rewrite Hi, Nat.add_0_r. reflexivity.
    + intros k Hk. f_equal. lia.
Qed.

Lemma interp_main n values coords : interp n values coords = multilinear n values coords.
Proof. apply interp_outer_spec. Qed.

(** vertex values are reproduced *)
Lemma weight_vertex n : forall i j, (i < 2 ^ n)%nat -> (j < 2 ^ n)%nat ->
  vertex_weight n (fun k => INR (digit 2 n k j)) i = if (i =? j)%nat then 1 else 0.
Proof.
  induction n as [|n IH]; intros i j Hi Hj.
  - cbn in Hi, Hj. assert (i = 0)%nat as -> by lia. assert (j = 0)%nat as -> by lia. reflexivity.
  - rewrite weight_S by exact Hi. rewrite digit_0 by (auto; lia). pose proof (pow_pos 2 n ltac:(lia)).
    assert (E : vertex_weight n (fun k => INR (digit 2 (S n) (S k) j)) (i mod 2 ^ n) = if (i mod 2 ^ n =? j mod 2 ^ n)%nat then 1 else 0).
    { rewrite <- IH by (apply Nat.mod_upper_bound; lia). unfold vertex_weight. apply rprod_ext. intros k Hk. now rewrite digit_S by lia. }
    rewrite E. assert (Di : (i / 2 ^ n < 2)%nat) by (apply Nat.div_lt_upper_bound; [lia|]; cbn [Nat.pow] in Hi; lia).
    assert (Dj : (j / 2 ^ n < 2)%nat) by (apply Nat.div_lt_upper_bound; [lia|]; cbn [Nat.pow] in Hj; lia).
    pose proof (Nat.div_mod i (2 ^ n) ltac:(lia)) as Ei. pose proof (Nat.div_mod j (2 ^ n) ltac:(lia)) as Ej.
    destruct (Nat.eqb_spec i j) as [->|Hij].
    + rewrite Nat.eqb_refl. assert (j / 2 ^ n = 0 \/ j / 2 ^ n = 1)%nat as [->| ->] by lia; cbn; lra.
    + destruct (Nat.eqb_spec (i mod 2 ^ n) (j mod 2 ^ n)) as [Em|]; [|ring].
      assert (i / 2 ^ n <> j / 2 ^ n)%nat by (intros Ed; apply Hij; rewrite Ei, Ej, Ed, Em; reflexivity).
      assert (i / 2 ^ n = 0 /\ j / 2 ^ n = 1 \/ i / 2 ^ n = 1 /\ j / 2 ^ n = 0)%nat as [[-> ->]|[-> ->]] by lia; cbn; lra.
Qed.

Lemma interp_vertices n values j : (j < 2 ^ n)%nat -> interp n values (fun k => INR (digit 2 n k j)) = values j.
Proof.
  intros Hj. rewrite interp_main. unfold multilinear. rewrite (rsum_single _ j); [|exact Hj|].
  - rewrite weight_vertex, Nat.eqb_refl by auto. ring.
  - intros i Hi Hij. rewrite weight_vertex by auto. apply Nat.eqb_neq in Hij. rewrite Hij. ring.
Qed.
