From Coq Require Import Reals ZArith List Bool Lia Lra Arith.
From Verif Require Import Outcome ListUtil History_Model History_Spec.
Import ListNotations.
Local Open Scope R_scope.
Local Opaque huge.

Lemma Rltb_true x y : Rltb x y = true <-> x < y.
Proof. unfold Rltb. destruct (Rlt_dec x y); split; congruence. Qed.
Lemma Rltb_false x y : Rltb x y = false <-> y <= x.
Proof. unfold Rltb. destruct (Rlt_dec x y); split; intros; try congruence; lra. Qed.
Lemma Rleb_true x y : Rleb x y = true <-> x <= y.
Proof. unfold Rleb. destruct (Rle_dec x y); split; congruence. Qed.
Lemma Rleb_false x y : Rleb x y = false <-> y < x.
Proof. unfold Rleb. destruct (Rle_dec x y); split; intros; try congruence; lra. Qed.

(** ** the growth factor *)
Lemma factor_gt_1 w n : 0 < w < 1 -> (0 < n)%nat -> 1 < factor w n.
Proof.
  intros W N. unfold factor. assert (Hn : 0 < INR n) by (apply lt_0_INR; lia).
  apply Rle_lt_trans with (Rpower (1 / (1 - w)) 0); [rewrite Rpower_O; [lra|apply Rdiv_lt_0_compat; lra]|].
  apply Rpower_lt.
  - apply (Rmult_lt_reg_r (1 - w)); [lra|]. unfold Rdiv. rewrite Rmult_assoc, Rinv_l; lra.
  - apply Rdiv_lt_0_compat; lra.
Qed.

Lemma factor_pow w n : 0 < w < 1 -> (0 < n)%nat -> factor w n ^ n * (1 - w) = 1.
Proof.
  intros W N. assert (Hn : 0 < INR n) by (apply lt_0_INR; lia).
  rewrite <- Rpower_pow; [|pose proof (factor_gt_1 w n W N); lra]. unfold factor. rewrite Rpower_mult.
  replace (1 / INR n * INR n) with 1 by (field; lra). rewrite Rpower_1; [field; lra|apply Rdiv_lt_0_compat; lra].
Qed.

Lemma pow_bernoulli d k : 0 <= d -> 1 + INR k * d <= (1 + d) ^ k.
Proof.
  intros D. induction k as [|k IH]; [cbn; lra|]. rewrite S_INR. cbn [pow].
  assert (0 <= INR k) by apply pos_INR. assert (0 <= INR k * d) by now apply Rmult_le_pos.
  apply Rle_trans with ((1 + d) * (1 + INR k * d)); [|apply Rmult_le_compat_l; lra].
  assert (0 <= d * (INR k * d)) by now apply Rmult_le_pos. lra.
Qed.

Lemma pow_unbounded g x : 1 < g -> exists k, x < g ^ k.
Proof.
  intros G. destruct (Pow_x_infinity g ltac:(rewrite Rabs_right; lra) (x + 1)) as (k & Hk). exists k. specialize (Hk k (le_n k)).
  rewrite Rabs_right in Hk; [lra|]. apply Rle_ge, pow_le. lra.
Qed.

Lemma pow_ge_1 g k : 1 < g -> 1 <= g ^ k.
Proof. intros G. apply pow_R1_Rle. lra. Qed.

(** ** loops *)
Lemma raise_spec g it : 1 < g -> forall k thr, 0 < thr -> IZR it < thr * g ^ k ->
  exists j, forall fuel, (k < fuel)%nat ->
    raise_threshold fuel thr g it = Ok (thr * g ^ j) /\ IZR it < thr * g ^ j /\ (j = 0%nat \/ thr * g ^ j <= g * IZR it) /\
    (thr <= IZR it -> (1 <= j)%nat).
Proof.
  intros G. induction k as [|k IH]; intros thr T H.
  - exists 0%nat. intros [|fuel] F; [lia|]. cbn [raise_threshold pow] in *. assert (Rleb thr (IZR it) = false) as -> by (apply Rleb_false; lra).
    rewrite Rmult_1_r. repeat split; auto; lra.
  - destruct (Rle_dec thr (IZR it)) as [L|L].
    + destruct (IH (thr * g)) as [j Hj]; [apply Rmult_lt_0_compat; lra|cbn [pow] in H; lra|].
      exists (S j). intros [|fuel] F; [lia|]. cbn [raise_threshold]. assert (Rleb thr (IZR it) = true) as -> by now apply Rleb_true.
      destruct (Hj fuel ltac:(lia)) as (E & B & C & _). cbn [pow]. replace (thr * (g * g ^ j)) with (thr * g * g ^ j) by ring.
      repeat split; auto; [|lia]. right. destruct C as [->|C]; [|exact C]. cbn [pow]. rewrite Rmult_1_r, (Rmult_comm thr). apply Rmult_le_compat_l; lra.
    + exists 0%nat. intros [|fuel] F; [lia|]. cbn [raise_threshold pow]. assert (Rleb thr (IZR it) = false) as -> by (apply Rleb_false; lra).
      rewrite Rmult_1_r. repeat split; auto; lra.
Qed.

Definition it_at N (its : list Z) start i : Z := nth ((start + i) mod N) its 0%Z.

Lemma forget_spec N its limit : (0 < N)%nat -> forall sz start fuel, (start < N)%nat -> (0 < sz <= N)%nat -> (sz < fuel)%nat ->
  limit <= IZR (it_at N its start (sz - 1)) ->
  exists k, (k < sz)%nat /\ forget fuel N start sz its limit = Ok ((start + k) mod N, sz - k)%nat /\
    (forall i, (i < k)%nat -> IZR (it_at N its start i) < limit) /\ limit <= IZR (it_at N its start k).
Proof.
  intros HN. induction sz as [|sz IH]; intros start [|fuel] Hs Hz Hf L; try lia. cbn [forget].
  assert ((N <? S sz) = false)%nat as -> by (apply Nat.ltb_ge; lia). cbn [orb].
  assert (E0 : it_at N its start 0 = nth start its 0%Z) by (unfold it_at; rewrite Nat.add_0_r, Nat.mod_small; auto).
  rewrite <- E0. destruct (Rltb (IZR (it_at N its start 0)) limit) eqn:E.
  - apply Rltb_true in E. destruct sz as [|sz]; [cbn [Nat.sub] in L; lra|].
    assert (SH : forall i, it_at N its ((start + 1) mod N) i = it_at N its start (S i)).
    { intros i. unfold it_at. rewrite Nat.add_mod_idemp_l by lia. now replace (start + 1 + i)%nat with (start + S i)%nat by lia. }
    destruct (IH ((start + 1) mod N) fuel)%nat as (k & K1 & K2 & K3 & K4); [apply Nat.mod_upper_bound; lia|lia|lia| |].
    { rewrite SH. now replace (S (S sz - 1))%nat with (S (S sz) - 1)%nat by lia. }
    exists (S k). split; [lia|]. split; [|split].
    + rewrite K2. rewrite Nat.add_mod_idemp_l by lia. replace (start + 1 + k)%nat with (start + S k)%nat by lia. now replace (S sz - k)%nat with (S (S sz) - S k)%nat by lia.
    + intros [|i] Hi; [exact E|]. rewrite <- SH. apply K3. lia.
    + now rewrite <- SH.
  - apply Rltb_false in E. exists 0%nat. split; [lia|]. split; [|split].
    + rewrite Nat.add_0_r, Nat.mod_small, Nat.sub_0_r; auto.
    + intros i Hi. lia.
    + exact E.
Qed.

(** ** contents of the ring buffer *)
Definition at_ N (its : list Z) (vals : list R) start i : Z * R := (nth ((start + i) mod N) its 0%Z, nth ((start + i) mod N) vals 0).
Definition ring N its vals start sz := map (at_ N its vals start) (seq 0 sz).

Lemma ring_length N its vals start sz : length (ring N its vals start sz) = sz.
Proof. unfold ring. now rewrite map_length, seq_length. Qed.

Lemma ring_split N its vals start sz k : (0 < N)%nat -> (k <= sz)%nat ->
  ring N its vals start sz = ring N its vals start k ++ ring N its vals ((start + k) mod N) (sz - k).
Proof.
  intros HN K. unfold ring. replace sz with (k + (sz - k))%nat at 1 by lia. rewrite seq_app, map_app. f_equal.
  cbn [Nat.add].
  assert (E : seq k (sz - k) = map (fun i => (k + i)%nat) (seq 0 (sz - k))).
  { generalize (sz - k)%nat as n. intros n. clear. replace k with (k + 0)%nat at 1 by lia. generalize 0%nat as a.
    induction n as [|n IH]; intros a; [reflexivity|]. cbn [seq map]. f_equal. rewrite <- IH. f_equal. lia. }
  rewrite E, !map_map. apply map_ext. intros i. unfold at_. rewrite Nat.add_mod_idemp_l by lia. now rewrite Nat.add_assoc.
Qed.

Lemma mod_inj N start i j : (i < N)%nat -> (j < N)%nat -> ((start + i) mod N = (start + j) mod N)%nat -> i = j.
Proof.
  intros Hi Hj E. assert (HN : N <> 0%nat) by lia.
  pose proof (Nat.div_mod (start + i) N HN) as A. pose proof (Nat.div_mod (start + j) N HN) as B. rewrite E in A.
  set (q := ((start + i) / N)%nat) in *. set (q' := ((start + j) / N)%nat) in *.
  destruct (Nat.lt_trichotomy q q') as [L|[L|L]]; nia.
Qed.

Lemma ring_write N its vals start sz it v : (0 < N)%nat -> length its = N -> length vals = N -> (sz < N)%nat ->
  let e := ((start + sz) mod N)%nat in
  ring N (set_nth e it its) (set_nth e v vals) start (sz + 1) = ring N its vals start sz ++ [(it, v)].
Proof.
  intros HN L1 L2 Hs e. unfold ring. rewrite seq_app, map_app. cbn [seq map Nat.add]. f_equal.
  - apply map_ext_in. intros i Hi%in_seq. unfold at_. rewrite !nth_set_nth_neq; [reflexivity| |];
      intros E; apply mod_inj in E; lia.
  - assert (e < N)%nat by (apply Nat.mod_upper_bound; lia). unfold at_. fold e. rewrite !nth_set_nth_eq; [reflexivity| |]; lia.
Qed.

Lemma ring_write_full N its vals start it v : (0 < N)%nat -> length its = N -> length vals = N -> (start < N)%nat ->
  let e := ((start + N) mod N)%nat in
  ring N (set_nth e it its) (set_nth e v vals) ((start + 1) mod N) N = tl (ring N its vals start N) ++ [(it, v)].
Proof.
  intros HN L1 L2 Hs e. assert (Ee : e = start).
  { unfold e. replace (start + N)%nat with (start + 1 * N)%nat by lia. rewrite Nat.mod_add by lia. now apply Nat.mod_small. }
  rewrite Ee. destruct N as [|N]; [lia|].
  assert (A : ring (S N) its vals start (S N) = at_ (S N) its vals start 0 :: ring (S N) its vals ((start + 1) mod S N) N).
  { rewrite (ring_split (S N) its vals start (S N) 1) by lia. cbn [ring seq map app]. now replace (S N - 1)%nat with N by lia. }
  rewrite A. cbn [tl].
  pose proof (ring_write (S N) its vals ((start + 1) mod S N) N it v ltac:(lia) L1 L2 ltac:(lia)) as W. cbv zeta in W.
  replace (((start + 1) mod S N + N) mod S N)%nat with start in W.
  - replace (N + 1)%nat with (S N) in W by lia. exact W.
  - rewrite Nat.add_mod_idemp_l by lia. replace (start + 1 + N)%nat with (start + 1 * S N)%nat by lia.
    rewrite Nat.mod_add by lia. symmetry. now apply Nat.mod_small.
Qed.

(** ** extrema *)
Lemma fold_min vals : forall acc, Forall (fun v => v <= acc) vals \/ True ->
  let r := fold_left Rmin vals acc in (r = acc \/ In r vals) /\ r <= acc /\ Forall (fun v => r <= v) vals.
Proof.
  induction vals as [|v vals IH]; intros acc _; cbn [fold_left]; [repeat split; auto; lra|].
  destruct (IH (Rmin acc v) (or_intror I)) as (A & B & C). cbv zeta. pose proof (Rmin_l acc v). pose proof (Rmin_r acc v).
  repeat split; [|lra|constructor; [lra|exact C]].
  destruct A as [A|A]; [|right; now right]. rewrite A. unfold Rmin. destruct (Rle_dec acc v); [now left|right; now left].
Qed.

Lemma fold_max vals : forall acc,
  let r := fold_left Rmax vals acc in (r = acc \/ In r vals) /\ acc <= r /\ Forall (fun v => v <= r) vals.
Proof.
  induction vals as [|v vals IH]; intros acc; cbn [fold_left]; [repeat split; auto; lra|].
  destruct (IH (Rmax acc v)) as (A & B & C). cbv zeta. pose proof (Rmax_l acc v). pose proof (Rmax_r acc v).
  repeat split; [|lra|constructor; [lra|exact C]].
  destruct A as [A|A]; [|right; now right]. rewrite A. unfold Rmax. destruct (Rle_dec acc v); [right; now left|now left].
Qed.

Lemma fold_left_map' {A B C} (f : A -> B) (g : C -> B -> C) l : forall acc, fold_left (fun a i => g a (f i)) l acc = fold_left g (map f l) acc.
Proof. induction l as [|x l IH]; intros acc; cbn; auto. Qed.

Lemma ring_vals N its vals start sz : map (fun i => nth i vals 0) (map (fun offset => (start + offset) mod N)%nat (seq 0 sz)) = map snd (ring N its vals start sz).
Proof. unfold ring. rewrite !map_map. apply map_ext. reflexivity. Qed.

Lemma Forall_map' {A B} (P : B -> Prop) (f : A -> B) l : Forall P (map f l) <-> Forall (fun x => P (f x)) l.
Proof. induction l as [|x l IH]; cbn; [split; constructor|]. split; intros H; inversion_clear H; constructor; auto; now apply IH. Qed.

Lemma extrema N its vals start sz : (0 < sz)%nat -> Forall (fun s => - huge <= snd s <= huge) (ring N its vals start sz) ->
  let inds := map (fun offset => (start + offset) mod N)%nat (seq 0 sz) in
  is_minimum (fold_left (fun acc i => Rmin acc (nth i vals 0)) inds huge) (ring N its vals start sz) /\
  is_maximum (fold_left (fun acc i => Rmax acc (nth i vals 0)) inds (- huge)) (ring N its vals start sz).
Proof.
  intros Hz F inds. rewrite (fold_left_map' (fun i => nth i vals 0) Rmin), (fold_left_map' (fun i => nth i vals 0) Rmax). unfold inds. rewrite (ring_vals N its vals start sz).
  assert (Len := ring_length N its vals start sz). set (l := ring N its vals start sz) in *. clearbody l. destruct l as [|s l]; [cbn in Len; lia|].
  split.
  - destruct (fold_min (map snd (s :: l)) huge (or_intror I)) as (A & B & C). cbv zeta in *. split; [|now apply Forall_map'].
    destruct A as [A|A]; [|exact A]. rewrite A in *. cbn in C. inversion_clear C. inversion_clear F. left. lra.
  - destruct (fold_max (map snd (s :: l)) (- huge)) as (A & B & C). cbv zeta in *. split; [|now apply Forall_map' in C].
    destruct A as [A|A]; [|exact A]. rewrite A in *. cbn in C. inversion_clear C. inversion_clear F. left. lra.
Qed.

(** ** invariant *)
Record Inv (w : R) (N : nat) (m : monitor) (dropped : list (Z * R)) : Prop := {
  i_samples : m_samples m = N; i_win : m_win m = w;
  i_its : length (m_iterations m) = N; i_vals : length (m_values m) = N; i_start : (m_start m < N)%nat; i_sz : (m_sz m <= N)%nat;
  i_empty : m_sz m = 0%nat -> dropped = [] /\ m_threshold m = 1 /\ m_min m = - huge /\ m_max m = huge;
  i_pos : 0 < m_threshold m;
  i_nonneg : let rec := dropped ++ ring N (m_iterations m) (m_values m) (m_start m) (m_sz m) in
    Forall (fun s => (0 <= fst s)%Z /\ - huge <= snd s <= huge) rec;
  i_growth : let rec := dropped ++ ring N (m_iterations m) (m_values m) (m_start m) (m_sz m) in
    forall a x b, rec = a ++ x :: b -> factor w N ^ length b * IZR (fst x) < m_threshold m;
  i_thr : let rec := dropped ++ ring N (m_iterations m) (m_values m) (m_start m) (m_sz m) in
    forall r q, rec = r ++ [q] -> m_threshold m <= Rmax 1 (factor w N * IZR (fst q)) /\
      Forall (fun d => IZR (fst d) < factor w N * (1 - w) * IZR (fst q)) dropped /\
      Forall (fun s => (1 - w) * IZR (fst q) <= IZR (fst s)) (ring N (m_iterations m) (m_values m) (m_start m) (m_sz m));
  i_sorted : let rec := dropped ++ ring N (m_iterations m) (m_values m) (m_start m) (m_sz m) in
    forall a x b y c, rec = a ++ x :: b ++ y :: c -> (fst x < fst y)%Z;
  i_ext : (0 < m_sz m)%nat -> is_minimum (m_min m) (ring N (m_iterations m) (m_values m) (m_start m) (m_sz m)) /\
    is_maximum (m_max m) (ring N (m_iterations m) (m_values m) (m_start m) (m_sz m)) }.

Definition rec_of m dropped := dropped ++ ring (m_samples m) (m_iterations m) (m_values m) (m_start m) (m_sz m).

Lemma Inv_new w N : (0 < N)%nat -> Inv w N (new_monitor w N) [].
Proof.
  intros HN. split; cbn; try rewrite repeat_length; auto; try lia; try lra.
  - intros a x b E. destruct a; discriminate.
  - intros r q E. destruct r; discriminate.
  - intros a x b y c E. destruct a; discriminate.
Qed.

Lemma app_snoc_inv {A} (l : list A) x r q : l ++ [x] = r ++ [q] -> l = r /\ x = q.
Proof. apply app_inj_tail. Qed.

Lemma snoc_split {A} (l : list A) x a y b : l ++ [x] = a ++ y :: b -> (exists b', b = b' ++ [x] /\ l = a ++ y :: b') \/ (b = [] /\ y = x /\ l = a).
Proof.
  destruct b as [|z b _] using rev_ind.
  - intros E. apply app_inj_tail in E as [-> ->]. now right.
  - intros E. left. replace (a ++ y :: b ++ [z]) with ((a ++ y :: b) ++ [z]) in E by (rewrite <- app_assoc; reflexivity).
    apply app_inj_tail in E as [-> ->]. now exists b.
Qed.

Lemma exists_snoc {A} (l : list A) : l <> [] -> exists r q, l = r ++ [q].
Proof. intros H. destruct (exists_last H) as (r & q & ->). eauto. Qed.

Lemma nth_ring N its vals start sz i d : (i < sz)%nat -> nth i (ring N its vals start sz) d = at_ N its vals start i.
Proof.
  intros Hi. unfold ring. rewrite (nth_indep _ d (at_ N its vals start 0)) by now rewrite map_length, seq_length.
  rewrite map_nth, seq_nth by exact Hi. reflexivity.
Qed.

(** One recorded sample: [mid] are the samples kept before it (after the capacity eviction). *)
Lemma step w N m dropped it v : 0 < w < 1 -> (0 < N)%nat -> Inv w N m dropped -> (0 <= it)%Z -> - huge <= v <= huge ->
  exists F m' dropped', (forall fuel, (F <= fuel)%nat -> add_sample fuel m it v = Ok m') /\ Inv w N m' dropped' /\
    (rec_of m' dropped' = rec_of m dropped /\ m' = m /\ (exists r q, rec_of m dropped = r ++ [q] /\ IZR it < Rmax 1 (factor w N * IZR (fst q))) \/
     rec_of m' dropped' = rec_of m dropped ++ [(it, v)] /\ (0 < m_sz m')%nat /\ forall r q, rec_of m dropped = r ++ [q] -> (fst q < it)%Z).
Proof.
  intros W HN I It Hv. pose proof (factor_gt_1 w N W HN) as G. pose proof (factor_pow w N W HN) as GN.
  destruct I as [E1 E2 L1 L2 Hs Hz Em Pos NonN Growth Thr Sorted Ext]. cbv zeta in *. unfold add_sample.
  set (g := factor w N) in *. set (its := m_iterations m) in *. set (vals := m_values m) in *. set (start := m_start m) in *. set (sz := m_sz m) in *.
  set (old := ring N its vals start sz) in *.
  destruct (negb (sz =? 0)%nat && Rltb (IZR it) (m_threshold m)) eqn:Skip.
  { apply andb_true_iff in Skip as [S1 S2]. apply Rltb_true in S2. apply negb_true_iff, Nat.eqb_neq in S1.
    exists 0%nat, m, dropped. split; [reflexivity|]. split; [split; auto|]. left. split; [reflexivity|]. split; [reflexivity|].
    unfold rec_of. rewrite E1. fold its vals start sz old.
    destruct (exists_snoc (dropped ++ old)) as (r & q & E).
    { intros E. apply app_eq_nil in E as [_ E]. apply (f_equal (@length _)) in E. unfold old in E. rewrite ring_length in E. cbn in E. lia. }
    exists r, q. split; [exact E|]. destruct (Thr r q E) as (T & _). lra. }
  assert (Rec : sz = 0%nat \/ m_threshold m <= IZR it).
  { apply andb_false_iff in Skip as [S|S]; [left; now apply negb_false_iff, Nat.eqb_eq in S|right; now apply Rltb_false in S]. }
  clear Skip. rewrite E1, E2. assert ((N =? 0)%nat = false) as -> by (apply Nat.eqb_neq; lia).
  set (e := ((start + sz) mod N)%nat). set (its' := set_nth e it its). set (vals' := set_nth e v vals).
  set (limit := IZR it * (1 - w)).
  (* everything recorded is older *)
  assert (Old : forall a x b, dropped ++ old = a ++ x :: b -> g ^ length b * IZR (fst x) < IZR it /\ (fst x < it)%Z).
  { intros a x b E. assert (sz <> 0%nat).
    { intros Z0. destruct (Em Z0) as (-> & _). unfold old in E. rewrite Z0 in E. cbn in E. destruct a; discriminate. }
    destruct Rec as [|Rec]; [contradiction|]. pose proof (Growth a x b E) as A. assert (Bx : g ^ length b * IZR (fst x) < IZR it) by lra.
    split; [exact Bx|]. apply lt_IZR. rewrite Forall_forall in NonN.
    destruct (NonN x) as (X & _); [rewrite E; apply in_or_app; right; now left|]. apply IZR_le in X.
    pose proof (pow_ge_1 g (length b) G). assert (1 * IZR (fst x) <= g ^ length b * IZR (fst x)) by (apply Rmult_le_compat_r; lra). lra. }
  (* state after the capacity eviction: start1, sz1 *)
  assert (Cap : exists start1 sz1 lost, (start1 < N)%nat /\ (0 < sz1 <= N)%nat /\
     old ++ [(it, v)] = lost ++ ring N its' vals' start1 sz1 /\
     Forall (fun d => IZR (fst d) < g * (1 - w) * IZR it) lost /\
     (forall fuel, (sz1 + 1 < fuel)%nat -> exists fuel', (sz1 < fuel')%nat /\ forget fuel N start (sz + 1) its' limit = forget fuel' N start1 sz1 its' limit)).
  { destruct (Nat.eq_dec sz N) as [Full|NF].
    - exists ((start + 1) mod N)%nat, N. pose proof (ring_write_full N its vals start it v HN L1 L2 Hs) as W1. cbv zeta in W1.
      assert (e = (start + N) mod N)%nat as Ee by (unfold e; now rewrite Full). rewrite <- Ee in W1. fold its' vals' in W1.
      unfold old. rewrite Full. destruct (ring N its vals start N) as [|x tl_] eqn:Er.
      { apply (f_equal (@length _)) in Er. rewrite ring_length in Er. cbn in Er. lia. }
      exists [x]. split; [apply Nat.mod_upper_bound; lia|]. split; [lia|]. split; [|split].
      + rewrite W1. reflexivity.
      + constructor; [|constructor]. unfold old in Old. rewrite Full, Er in Old. destruct (Old dropped x tl_ eq_refl) as (B & _).
        assert (Lt : length tl_ = (N - 1)%nat) by (apply (f_equal (@length _)) in Er; rewrite ring_length in Er; cbn in Er; lia).
        rewrite Lt in B. assert (GG : g ^ N = g * g ^ (N - 1)) by (destruct N; [lia|]; cbn [pow]; now replace (S N - 1)%nat with N by lia).
        rewrite GG in GN. assert (P : 0 < g * (1 - w)) by (apply Rmult_lt_0_compat; lra).
        apply (Rmult_lt_compat_l _ _ _ P) in B. replace (g * (1 - w) * (g ^ (N - 1) * IZR (fst x))) with (g * g ^ (N - 1) * (1 - w) * IZR (fst x)) in B by ring.
        rewrite GN in B. lra.
      + intros [|fuel] Hf; [lia|]. exists fuel. split; [lia|]. cbn [forget].
        assert ((N <? N + 1)%nat = true) as -> by (apply Nat.ltb_lt; lia). cbn [orb]. now replace (N + 1)%nat with (S N) by lia.
    - exists start, (sz + 1)%nat, []. split; [exact Hs|]. split; [lia|]. split; [|split].
      + cbn [app]. symmetry. apply (ring_write N its vals start sz it v); auto. lia.
      + constructor.
      + intros fuel Hf. exists fuel. split; [lia|reflexivity]. }
  destruct Cap as (start1 & sz1 & lost1 & Hs1 & Hz1 & R1 & F1 & Fuel1).
  assert (Last1 : at_ N its' vals' start1 (sz1 - 1) = (it, v)).
  { rewrite <- (nth_ring N its' vals' start1 sz1 (sz1 - 1) (0%Z, 0)) by lia.
    assert (Er : exists r, ring N its' vals' start1 sz1 = r ++ [(it, v)]).
    { destruct (exists_snoc (ring N its' vals' start1 sz1)) as (r & q & E).
      - intros E. apply (f_equal (@length _)) in E. rewrite ring_length in E. cbn in E. lia.
      - rewrite E, app_assoc in R1. apply app_inj_tail in R1 as [_ <-]. eauto. }
    destruct Er as (r & Er). assert (Lr : length r = (sz1 - 1)%nat).
    { apply (f_equal (@length _)) in Er. rewrite ring_length, app_length in Er. cbn in Er. lia. }
    rewrite Er, <- Lr, app_nth2, Nat.sub_diag; auto. }
  assert (LimLast : limit <= IZR it).
  { unfold limit. apply IZR_le in It. assert (0 <= IZR it * w) by (apply Rmult_le_pos; lra). lra. }
  assert (It1 : it_at N its' start1 (sz1 - 1) = it) by exact (f_equal fst Last1).
  destruct (forget_spec N its' limit HN sz1 start1 (sz1 + 1) Hs1 Hz1) as (k & K1 & _ & K3 & K4); [lia|now rewrite It1|].
  assert (Forget : forall fuel, (sz1 + 1 < fuel)%nat -> forget fuel N start (sz + 1) its' limit = Ok ((start1 + k) mod N, sz1 - k)%nat).
  { intros fuel Hf. destruct (Fuel1 fuel Hf) as (fuel' & Hf' & ->).
    destruct (forget_spec N its' limit HN sz1 start1 fuel' Hs1 Hz1) as (k' & K1' & K2' & K3' & K4'); [lia|now rewrite It1|].
    assert (k' = k) as ->; [|exact K2']. destruct (Nat.lt_trichotomy k k') as [L|[L|L]]; [|auto|].
    - specialize (K3' k L). lra.
    - specialize (K3 k' L). lra. }
  set (start2 := ((start1 + k) mod N)%nat) in *. set (sz2 := (sz1 - k)%nat) in *.
  assert (R2 : ring N its' vals' start1 sz1 = ring N its' vals' start1 k ++ ring N its' vals' start2 sz2) by (apply ring_split; lia).
  (* threshold *)
  destruct (pow_unbounded g (IZR it / m_threshold m) G) as (kk & Hkk).
  destruct (raise_spec g it G kk (m_threshold m) Pos) as (j & Hj).
  { apply (Rmult_lt_compat_l (m_threshold m)) in Hkk; [|exact Pos].
    replace (m_threshold m * (IZR it / m_threshold m)) with (IZR it) in Hkk by (field; lra). exact Hkk. }
  destruct (Hj (S kk) ltac:(lia)) as (_ & J1 & J2 & J3).
  set (thr' := m_threshold m * g ^ j) in *.
  exists (S (kk + sz1 + 2)).
  eexists (mk_mon N start2 sz2 its' vals' w thr' _ _), (dropped ++ lost1 ++ ring N its' vals' start1 k).
  assert (RecEq : (dropped ++ lost1 ++ ring N its' vals' start1 k) ++ ring N its' vals' start2 sz2 = (dropped ++ old) ++ [(it, v)]).
  { rewrite <- !app_assoc, <- R2, <- R1. reflexivity. }
  assert (Itr : 0 <= IZR it) by now apply IZR_le in It.
  split; [|split].
  - intros fuel Hf. rewrite Forget by lia. cbn [bind]. fold g. destruct (Hj fuel ltac:(lia)) as (-> & _). cbn [bind]. fold start2 sz2. reflexivity.
  - assert (NonN' : Forall (fun s => (0 <= fst s)%Z /\ - huge <= snd s <= huge) ((dropped ++ old) ++ [(it, v)])).
    { apply Forall_app; split; [exact NonN|constructor; [|constructor]]. now split. }
    assert (Sorted' : forall a x b y c, (dropped ++ old) ++ [(it, v)] = a ++ x :: b ++ y :: c -> (fst x < fst y)%Z).
    { intros a x b y c E. replace (a ++ x :: b ++ y :: c) with ((a ++ x :: b) ++ y :: c) in E by (rewrite <- app_assoc; reflexivity).
      apply snoc_split in E as [(c' & -> & E)|(-> & -> & E)].
      - rewrite <- app_assoc in E. exact (Sorted a x b y c' E).
      - now destruct (Old a x b E). }
    split; cbn [m_samples m_win m_iterations m_values m_start m_sz m_threshold m_min m_max]; cbv zeta; rewrite ?RecEq; auto.
    + unfold its'. now rewrite set_nth_length.
    + unfold vals'. now rewrite set_nth_length.
    + apply Nat.mod_upper_bound; lia.
    + unfold sz2. lia.
    + unfold sz2. lia.
    + unfold thr'. apply Rmult_lt_0_compat; [exact Pos|]. pose proof (pow_ge_1 g j G). lra.
    + intros a x b E. fold g. apply snoc_split in E as [(b' & -> & E)|(-> & -> & E)].
      * pose proof (Growth _ _ _ E) as A. fold g in A. rewrite app_length. cbn [length]. rewrite Nat.add_comm. cbn [Nat.add pow].
        assert (j >= 1)%nat as Jg.
        { apply J3. destruct Rec as [Z0|]; [|lra]. exfalso. destruct (Em Z0) as (-> & _). unfold old in E. rewrite Z0 in E. cbn in E. destruct a; discriminate. }
        unfold thr'. destruct j as [|j]; [lia|]. cbn [pow]. pose proof (pow_ge_1 g j G).
        assert (m_threshold m * 1 <= m_threshold m * g ^ j) by (apply Rmult_le_compat_l; lra).
        rewrite Rmult_assoc. replace (m_threshold m * (g * g ^ j)) with (g * (m_threshold m * g ^ j)) by ring. apply Rmult_lt_compat_l; lra.
      * cbn [length pow fst]. rewrite Rmult_1_l. exact J1.
    + intros r q E. apply app_inj_tail in E as [<- <-]. cbn [fst]. fold g.
      split; [|split].
      * destruct J2 as [J0|J2]; [|eapply Rle_trans; [exact J2|apply Rmax_r]].
        destruct Rec as [Z0|Rec].
        -- destruct (Em Z0) as (_ & T & _). unfold thr'. rewrite J0, T. cbn [pow]. rewrite Rmult_1_r. apply Rmax_l.
        -- specialize (J3 Rec). lia.
      * apply Forall_app; split; [|apply Forall_app; split].
        -- destruct dropped as [|d0 dr] eqn:Ed; [constructor|]. rewrite <- Ed in *.
           destruct (exists_snoc (dropped ++ old)) as (r & q & E); [rewrite Ed; discriminate|].
           destruct (Thr r q E) as (_ & D & _). eapply Forall_impl; [|exact D]. cbv beta. intros s Hs'. fold g in Hs'.
           destruct (Old r q [] E) as (_ & Q). apply IZR_lt in Q.
           apply Rlt_le_trans with (1 := Hs'). apply Rmult_le_compat_l; [|lra]. apply Rmult_le_pos; lra.
        -- exact F1.
        -- apply Forall_forall. intros s Hin. unfold ring in Hin. apply in_map_iff in Hin as (i & <- & Hi%in_seq).
           assert (Hlt : IZR (it_at N its' start1 i) < limit) by (apply K3; lia). change (fst (at_ N its' vals' start1 i)) with (it_at N its' start1 i).
           unfold limit in Hlt. assert (0 <= IZR it * (1 - w)) by (apply Rmult_le_pos; lra).
           assert (1 * (IZR it * (1 - w)) <= g * (IZR it * (1 - w))) by (apply Rmult_le_compat_r; lra). lra.
      * (* the oldest kept sample is in the window, the others are newer *)
        apply Forall_forall. intros s Hin. destruct sz2 as [|z2] eqn:E2'; [destruct Hin|].
        assert (First : exists tl_, ring N its' vals' start2 (S z2) = at_ N its' vals' start2 0 :: tl_) by (eexists; reflexivity).
        destruct First as (tl_ & First). assert (A0 : (1 - w) * IZR it <= IZR (fst (at_ N its' vals' start2 0))).
        { unfold start2. cbn [at_ fst]. rewrite Nat.add_0_r, Nat.mod_mod by lia. unfold limit, it_at in K4. lra. }
        rewrite First in Hin. destruct Hin as [<-|Hin]; [exact A0|].
        apply in_split in Hin as (b & c & Hbc). rewrite First, Hbc in RecEq.
        assert (S1 : (fst (at_ N its' vals' start2 0) < fst s)%Z) by (eapply Sorted'; symmetry; exact RecEq).
        apply IZR_lt in S1. lra.
    + intros Hpos. apply extrema; [exact Hpos|]. apply Forall_forall. intros s Hs'. rewrite Forall_forall in NonN'.
      apply NonN'. rewrite <- RecEq. apply in_or_app. now right.
  - right. unfold rec_of. cbn [m_samples m_iterations m_values m_start m_sz]. rewrite E1. fold its vals start sz old. split; [exact RecEq|].
    split; [unfold sz2; lia|]. intros r q E. now destruct (Old r q [] E).
Qed.

Lemma rec_snoc_inv w N m dropped : (0 < N)%nat -> Inv w N m dropped -> rec_of m dropped = [] -> m_sz m = 0%nat.
Proof. intros _ _ E. unfold rec_of in E. apply app_eq_nil in E as [_ E]. apply (f_equal (@length _)) in E. now rewrite ring_length in E. Qed.

Lemma run_inv w N : 0 < w < 1 -> (0 < N)%nat -> forall l, Forall (fun s => (0 <= fst s)%Z /\ - huge <= snd s <= huge) l ->
  exists F m dropped, (forall fuel, (F <= fuel)%nat -> add_samples fuel (new_monitor w N) l = Ok m) /\ Inv w N m dropped /\
    thinned (factor w N) l (rec_of m dropped) /\ (l <> [] -> (0 < m_sz m)%nat) /\ (l = [] -> m_sz m = 0%nat).
Proof.
  intros W HN. induction l as [|(it, v) l IH] using rev_ind; intros Hl.
  - exists 0%nat, (new_monitor w N), []. split; [reflexivity|]. split; [now apply Inv_new|]. split; [constructor|]. split; [congruence|reflexivity].
  - apply Forall_app in Hl as [Hl H1]. inversion_clear H1 as [|? ? (It & Hv) _]. cbn [fst snd] in *.
    destruct (IH Hl) as (F & m & dropped & Run & I & T & Ne & Em).
    destruct (step w N m dropped it v W HN I It Hv) as (F' & m' & dropped' & Run' & I' & C).
    exists (F + F')%nat, m', dropped'. split; [|split; [exact I'|]].
    { intros fuel Hf. assert (App : forall l1 l2 m0, add_samples fuel m0 (l1 ++ l2) = bind (add_samples fuel m0 l1) (fun m1 => add_samples fuel m1 l2)).
      { induction l1 as [|(i0, v0) l1 IH1]; intros l2 m0; [reflexivity|]. cbn [app add_samples]. destruct (add_sample fuel m0 i0 v0); cbn [bind]; auto. }
      rewrite App, Run by lia. cbn [bind add_samples]. rewrite Run' by lia. reflexivity. }
    split; [|split; [|intros E; apply app_eq_nil in E as [_ E]; discriminate]].
    + destruct C as [(E & _ & r & q & E' & B)|(E & _ & B)].
      * rewrite E, E'. apply thinned_skip; [now rewrite <- E'|exact B].
      * rewrite E. assert (D : l = [] \/ l <> []) by (destruct l; [now left|right; discriminate]). destruct D as [El|El].
        -- assert (rec_of m dropped = []) as ->.
           { specialize (Em El). destruct I as [E1 _ _ _ _ _ Emp _ _ _ _ _ _]. destruct (Emp Em) as (-> & _). unfold rec_of. now rewrite Em. }
           rewrite El. apply thinned_first.
        -- destruct (exists_snoc (rec_of m dropped)) as (r & q & Er).
           { intros E0. pose proof (rec_snoc_inv w N m dropped HN I E0). assert (0 < m_sz m)%nat by (apply Ne, El). lia. }
           rewrite Er. rewrite <- app_assoc. cbn [app]. apply thinned_keep; [now rewrite <- Er|]. exact (B r q Er).
    + intros _. destruct C as [(_ & -> & r & q & E' & _)|(_ & P & _)]; [|exact P].
      destruct (Nat.eq_dec (m_sz m) 0) as [Z0|]; [|lia]. exfalso. destruct I as [E1 _ _ _ _ _ Emp _ _ _ _ _ _]. destruct (Emp Z0) as (-> & _).
      unfold rec_of in E'. rewrite Z0 in E'. cbn in E'. destruct r; discriminate.
Qed.

Lemma history_main w N l : 0 < w < 1 -> (0 < N)%nat -> Forall (fun s => (0 <= fst s)%Z /\ - huge <= snd s <= huge) l ->
  exists F m, (forall fuel, (F <= fuel)%nat -> add_samples fuel (new_monitor w N) l = Ok m) /\
    (l = [] -> m_min m = - huge /\ m_max m = huge) /\
    (l <> [] -> exists dropped kept q, thinned (factor w N) l (dropped ++ kept ++ [q]) /\ (length (kept ++ [q]) <= N)%nat /\
       is_minimum (m_min m) (kept ++ [q]) /\ is_maximum (m_max m) (kept ++ [q]) /\
       Forall (fun s => (1 - w) * IZR (fst q) <= IZR (fst s)) (kept ++ [q]) /\
       Forall (fun d => IZR (fst d) < factor w N * (1 - w) * IZR (fst q)) dropped).
Proof.
  intros W HN Hl. destruct (run_inv w N W HN l Hl) as (F & m & dropped & Run & I & T & Ne & Em).
  exists F, m. split; [exact Run|]. split.
  - intros E. destruct I as [_ _ _ _ _ _ Emp _ _ _ _ _ _]. destruct (Emp (Em E)) as (_ & _ & A). exact A.
  - intros E. specialize (Ne E). destruct I as [E1 _ _ _ _ Hz _ _ _ _ Thr _ Ext]. cbv zeta in *.
    unfold rec_of in T. rewrite E1 in T.
    set (r := ring N (m_iterations m) (m_values m) (m_start m) (m_sz m)) in *.
    assert (Lr : length r = m_sz m) by apply ring_length.
    destruct (exists_snoc r) as (kept & q & Er); [intros E0; rewrite E0 in Lr; cbn in Lr; lia|].
    exists dropped, kept, q. rewrite <- Er. split; [exact T|]. split; [lia|]. destruct (Ext Ne) as (A & B). split; [exact A|]. split; [exact B|].
    destruct (Thr (dropped ++ kept) q) as (_ & C & D); [rewrite Er; apply app_assoc|]. now split.
Qed.
