(** Geometry: the neighbours of a leaf across a face. *)
From Coq Require Import ZArith QArith List Bool Arith Lia Sorted.
From Verif Require Import Outcome Tree_Model Tree_Spec Tree_Proofs Tree_Neighbors Tree_Flood Update_Model Update_Spec Update_Proofs1 Update_Proofs4 Trim_Spec Join_Model Join_Spec.
Import ListNotations.
Local Open Scope nat_scope.

(** ** inserting a digit *)
Definition ins (j : nat) (b : bool) (k : nat) : nat := (k / 2 ^ j) * 2 ^ S j + Nat.b2n b * 2 ^ j + k mod 2 ^ j.

Lemma ins_bit j b k i : Nat.testbit (ins j b k) i = if i <? j then Nat.testbit k i else if i =? j then b else Nat.testbit k (i - 1).
Proof.
  assert (P : 2 ^ j <> 0) by (apply Nat.pow_nonzero; lia).
  assert (E : ins j b k = (2 * (k / 2 ^ j) + Nat.b2n b) * 2 ^ j + k mod 2 ^ j) by (unfold ins; cbn [Nat.pow]; ring).
  assert (M : k mod 2 ^ j < 2 ^ j) by (apply Nat.mod_upper_bound, P). rewrite E.
  destruct (Nat.ltb_spec i j) as [L|L].
  - rewrite <- (Nat.mod_pow2_bits_low _ j i L). rewrite Nat.add_comm, Nat.mod_add by exact P. rewrite Nat.mod_mod by exact P.
    now apply Nat.mod_pow2_bits_low.
  - replace i with ((i - j) + j) at 1 by lia. rewrite <- Nat.div_pow2_bits. rewrite Nat.div_add_l by exact P. rewrite (Nat.div_small (k mod 2 ^ j)) by exact M.
    rewrite Nat.add_0_r. destruct (Nat.eqb_spec i j) as [->|N].
    + rewrite Nat.sub_diag. rewrite Nat.add_b2n_double_bit0 || (rewrite Nat.add_comm, Nat.add_b2n_double_bit0). reflexivity.
    + replace (i - j) with ((i - j - 1) + 1) by lia. rewrite <- (Nat.div_pow2_bits _ 1). change (2 ^ 1) with 2.
      rewrite (Nat.mul_comm 2), Nat.div_add_l by lia. replace (Nat.b2n b / 2) with 0 by (now destruct b). rewrite Nat.add_0_r.
      rewrite Nat.div_pow2_bits. f_equal. lia.
Qed.

Lemma ins_lt j b k k' : k < k' -> ins j b k < ins j b k'.
Proof.
  intros L. assert (P : 2 ^ j <> 0) by (apply Nat.pow_nonzero; lia). unfold ins. cbn [Nat.pow].
  pose proof (Nat.div_mod k (2 ^ j) P). pose proof (Nat.div_mod k' (2 ^ j) P).
  pose proof (Nat.mod_upper_bound k (2 ^ j) P). pose proof (Nat.mod_upper_bound k' (2 ^ j) P).
  assert (k / 2 ^ j <= k' / 2 ^ j) by (apply Nat.div_le_mono; lia). generalize dependent (k / 2 ^ j). generalize dependent (k' / 2 ^ j).
  generalize dependent (k mod 2 ^ j). generalize dependent (k' mod 2 ^ j). intros. nia.
Qed.

Lemma bound_bits k m : k < 2 ^ m <-> forall i, m <= i -> Nat.testbit k i = false.
Proof.
  split.
  - intros H i Hi. rewrite <- (Nat.mod_small k (2 ^ m) H). now apply Nat.mod_pow2_bits_high.
  - intros H. assert (E : k mod 2 ^ m = k).
    { apply Nat.bits_inj. intros i. destruct (Nat.lt_ge_cases i m) as [L|L]; [now apply Nat.mod_pow2_bits_low|].
      rewrite H by exact L. now apply Nat.mod_pow2_bits_high. }
    rewrite <- E. apply Nat.mod_upper_bound, Nat.pow_nonzero. lia.
Qed.

Lemma sorted_unique (l l' : list nat) : StronglySorted lt l -> StronglySorted lt l' -> (forall x, In x l <-> In x l') -> l = l'.
Proof.
  revert l'. induction l as [|a l IH]; intros [|a' l'] S1 S2 H; [reflexivity|destruct (proj2 (H a') (or_introl eq_refl))|destruct (proj1 (H a) (or_introl eq_refl))|].
  apply StronglySorted_inv in S1 as [S1 F1]. apply StronglySorted_inv in S2 as [S2 F2]. rewrite Forall_forall in F1, F2.
  assert (a = a') as <-.
  { destruct (proj1 (H a) (or_introl eq_refl)) as [E|E]; [now symmetry|]. destruct (proj2 (H a') (or_introl eq_refl)) as [E'|E']; [exact E'|].
    specialize (F1 _ E'). specialize (F2 _ E). lia. }
  f_equal. apply IH; auto. intros x. split; intros Hx.
  - destruct (proj1 (H x) (or_intror Hx)) as [<-|]; [|assumption]. specialize (F1 _ Hx). lia.
  - destruct (proj2 (H x) (or_intror Hx)) as [<-|]; [|assumption]. specialize (F2 _ Hx). lia.
Qed.

Lemma seq_sorted m : forall a, StronglySorted lt (seq a m).
Proof. induction m as [|m IH]; intros a; cbn; constructor; [apply IH|]. apply Forall_forall. intros x Hx. apply in_seq in Hx. lia. Qed.
Lemma filter_sorted (f : nat -> bool) l : StronglySorted lt l -> StronglySorted lt (filter f l).
Proof.
  induction 1 as [|a l S IH F]; cbn [filter]; [constructor|]. destruct (f a); [|exact IH]. constructor; [exact IH|].
  rewrite Forall_forall in *. intros x Hx. apply filter_In in Hx. apply F, Hx.
Qed.
Lemma map_sorted (f : nat -> nat) l : (forall a b, a < b -> f a < f b) -> StronglySorted lt l -> StronglySorted lt (map f l).
Proof.
  intros M. induction 1 as [|a l S IH F]; cbn [map]; constructor; [exact IH|]. rewrite Forall_forall in *. intros x Hx. apply in_map_iff in Hx as (y & <- & Hy). auto.
Qed.

Lemma filter_ins n j b : j < n -> filter (fun k => Bool.eqb (Nat.testbit k j) b) (seq 0 (2 ^ n)) = map (ins j b) (seq 0 (2 ^ (n - 1))).
Proof.
  intros L. apply sorted_unique; [apply filter_sorted, seq_sorted|apply map_sorted; [apply ins_lt|apply seq_sorted]|].
  intros k. rewrite filter_In, in_map_iff. setoid_rewrite in_seq. rewrite eqb_true_iff. split.
  - intros [[_ H] E]. assert (H' : forall i, n <= i -> Nat.testbit k i = false) by (now apply bound_bits).
    exists ((k / 2 ^ S j) * 2 ^ j + k mod 2 ^ j). assert (P : 2 ^ j <> 0) by (apply Nat.pow_nonzero; lia).
    assert (M : k mod 2 ^ j < 2 ^ j) by (apply Nat.mod_upper_bound, P).
    assert (T : forall i, Nat.testbit ((k / 2 ^ S j) * 2 ^ j + k mod 2 ^ j) i = if i <? j then Nat.testbit k i else Nat.testbit k (S i)).
    { intros i. destruct (Nat.ltb_spec i j) as [Li|Li].
      - rewrite <- (Nat.mod_pow2_bits_low _ j i Li). rewrite Nat.add_comm, Nat.mod_add by exact P. rewrite Nat.mod_mod by exact P. now apply Nat.mod_pow2_bits_low.
      - replace i with ((i - j) + j) at 1 by lia. rewrite <- Nat.div_pow2_bits. rewrite Nat.div_add_l by exact P. rewrite (Nat.div_small (k mod 2 ^ j)) by exact M.
        rewrite Nat.add_0_r. rewrite Nat.div_pow2_bits. f_equal. lia. }
    split.
    + apply Nat.bits_inj. intros i. rewrite ins_bit. destruct (Nat.ltb_spec i j) as [Li|Li].
      * rewrite T. now destruct (Nat.ltb_spec i j); [|lia].
      * destruct (Nat.eqb_spec i j) as [->|N]; [now symmetry|]. rewrite T. destruct (Nat.ltb_spec (i - 1) j); [lia|]. f_equal. lia.
    + split; [apply Nat.le_0_l|]. cbn [Nat.add]. apply bound_bits. intros i Hi. rewrite T. destruct (Nat.ltb_spec i j); apply H'; lia.
  - intros (k' & <- & _ & H). cbn [Nat.add] in H. split; [split; [lia|cbn [Nat.add]; apply bound_bits; intros i Hi]|].
    + rewrite ins_bit. destruct (Nat.ltb_spec i j); [lia|]. destruct (Nat.eqb_spec i j); [lia|]. apply (proj1 (bound_bits k' (n - 1)) H). lia.
    + rewrite ins_bit. rewrite Nat.ltb_irrefl, Nat.eqb_refl. reflexivity.
Qed.

(** ** neighbours across a face *)
Lemma sgn_unit s : sgn s = 1%Z \/ sgn s = (-1)%Z. Proof. destruct s; auto. Qed.

Lemma extremal_nonempty n dir t : wf n t -> nonneg n t -> exists r, In r (extremal_leaves n (bias3 n dir) t).
Proof.
  induction t as [l c s e cs IH] using tree_ind'. intros W N. rewrite extremal_eq. destruct cs as [|c0 cs0] eqn:Ecs; [exists []; now left|].
  rewrite <- Ecs in *. assert (Hne : cs <> []) by (rewrite Ecs; discriminate). clear Ecs c0 cs0.
  destruct (bit_surj n (fun i => (nth i dir 0 <? 0)%Z)) as (k & Hk & Hb). destruct (child_exists n _ k W Hne Hk) as [ch E]. cbn [t_children] in E.
  rewrite Forall_forall in IH. destruct (IH ch (nth_error_In _ _ E) (wf_child n _ k ch W E) (nonneg_child n _ k ch W N E)) as (r & Hr).
  exists (k :: r). assert (X : ext_cond n dir ch = true).
  { unfold ext_cond. apply forallb_forall. intros i Hi. apply in_seq in Hi. destruct (child_coord n _ k ch i W E ltac:(lia)) as (E1 & _).
    rewrite E1, rem_bit by (apply N; lia). rewrite Hb by lia. unfold bias3. rewrite nth_map_seq by lia. cbv zeta.
    destruct (Z.eqb_spec (nth i dir 0%Z) 0); [reflexivity|]. destruct (nth i dir 0 <? 0)%Z; reflexivity. }
  clear - E X Hr. assert (G : forall a, In ((a + k) :: r) (ext_list n dir a cs)).
  { revert k E. induction cs as [|c1 cs IH]; intros k E a; [now destruct k|]. cbn [ext_list]. apply in_or_app. destruct k as [|k]; cbn [nth_error] in E.
    - injection E as ->. left. rewrite X, Nat.add_0_r. now apply in_map.
    - right. rewrite <- Nat.add_succ_comm. now apply IH. }
  apply (G 0).
Qed.

(** The three cases: none; one that is not finer; the leaves at one side of a node of the same level. *)
Lemma nb_shape n t p x d s : reachable n t -> leaf_at t p x -> d < n ->
  exists l, find_neighbors n t p (direct n d (sgn s)) = Ok l /\ find_neighbor n t p (direct n d (sgn s)) = Ok (hd_error l) /\ NoDup l /\
    (forall q, In q l <-> exists y, leaf_at t q y /\ share_face n d (sgn s) x y) /\
    (l = [] \/ (exists q, l = [q] /\ length q <= length p) \/
     (exists m y, length m = length p /\ subtree t m = Some y /\ t_children y <> [] /\ l = map (app m) (extremal_leaves n (bias3 n (direct n d (sgn s))) y))).
Proof.
  intros R Lx Hd. pose proof (reachable_good n t R) as (W & L0 & N). set (dir := direct n d (sgn s)).
  assert (Ld : n <= length dir) by (unfold dir, direct; rewrite map_length, seq_length; lia).
  destruct (find_neighbors_correct n t p x dir R (proj1 Lx) Ld) as (l & E1 & E2 & ND & Hl). exists l. split; [exact E1|]. split; [exact E2|]. split; [exact ND|].
  split. { intros q. rewrite Hl. split; intros (y & Ly & H); exists y; (split; [exact Ly|]); apply (touches_face n t p x q y d (sgn s) W Lx Ly Hd (sgn_unit s)); exact H. }
  destruct (wf_subtree n t p x W (proj1 Lx)) as [_ Lev]. rewrite L0 in Lev. cbn [Nat.add] in Lev.
  rewrite (find_neighbors_F n t p x dir (reachable_good n t R) (proj1 Lx) Ld) in E1. injection E1 as <-.
  destruct (search (B n dir x) t) as [q|] eqn:E.
  - right. destruct (main_F n dir x t q W N ltac:(lia) E) as (y & Hy & HF). rewrite L0, Nat.sub_0_r, Lev in Hy, HF. rewrite <- HF.
    destruct (search_some _ n t q (B_covers n dir x) W E) as (y0 & [Hy0 Ly0] & _).
    destruct (Nat.le_gt_cases (length q) (length p)) as [Lq|Lq].
    + left. exists q. split; [|exact Lq]. rewrite firstn_all2 in * by exact Lq. assert (y = y0) by congruence. subst y.
      destruct y0 as [? ? ? ? cs]. cbn in Ly0. subst cs. cbn. now rewrite app_nil_r.
    + right. exists (firstn (length p) q), y. split; [rewrite firstn_length; lia|]. split; [exact Hy|]. split; [|reflexivity].
      rewrite <- (firstn_skipn (length p) q) in Hy0. rewrite subtree_app, Hy in Hy0. destruct (skipn (length p) q) as [|k r] eqn:Es.
      * apply (f_equal (@length nat)) in Es. rewrite skipn_length in Es. cbn in Es. lia.
      * cbn in Hy0. intros K. rewrite K in Hy0. now destruct k.
  - left. apply search_none in E. apply F_none; [exact W|]. rewrite T_B; [exact E|lia].
Qed.

Lemma leaf_prefix t p x q y r : leaf_at t p x -> leaf_at t q y -> q = p ++ r -> q = p.
Proof.
  intros [Hx Lx] [Hy _] ->. rewrite subtree_app, Hx in Hy. destruct r as [|k r]; [now rewrite app_nil_r|]. cbn in Hy. rewrite Lx in Hy. now destruct k.
Qed.

(** A neighbour that is not finer is the only one. *)
Lemma coarse_unique n t p x q y r z d s : reachable n t -> leaf_at t p x -> leaf_at t q y -> leaf_at t r z -> d < n ->
  share_face n d (sgn s) x y -> share_face n d (sgn s) x z -> length q <= length p -> r = q.
Proof.
  intros R Lx Ly Lz Hd Sy Sz L. destruct (nb_shape n t p x d s R Lx Hd) as (l & _ & _ & _ & Hl & Sh).
  assert (Iq : In q l) by (apply Hl; eauto). assert (Ir : In r l) by (apply Hl; eauto).
  destruct Sh as [->|[(q0 & -> & _)|(m & w & Lm & Hw & Cw & ->)]]; [contradiction| |].
  - destruct Iq as [<-|[]], Ir as [<-|[]]. reflexivity.
  - apply in_map_iff in Iq as (a & <- & Ha). destruct a as [|k a]; [|rewrite app_length in L; cbn in L; lia].
    rewrite app_nil_r in Ly. destruct Ly as [Hy Cy]. assert (w = y) by congruence. congruence.
Qed.

Lemma level_length n t p x : reachable n t -> subtree t p = Some x -> t_level x = length p.
Proof. intros R H. destruct (reachable_wf n t R) as (W & L & _). destruct (wf_subtree n t p x W H) as [_ E]. now rewrite E, L. Qed.

(** ** The fine neighbours, if they are one level finer *)

Lemma ext_list_children n d s m cs : wf n m -> nonneg n m -> t_children m = cs -> d < n ->
  (forall k ch, nth_error cs k = Some ch -> Bool.eqb (Nat.testbit k (n - 1 - d)) (negb s) = true -> t_children ch = []) ->
  ext_list n (direct n d (sgn s)) 0 cs = map (fun k => [k]) (filter (fun k => Bool.eqb (Nat.testbit k (n - 1 - d)) (negb s)) (seq 0 (length cs))).
Proof.
  intros W N Hc Hd Hl.
  assert (X : forall k ch, nth_error cs k = Some ch -> ext_cond n (direct n d (sgn s)) ch = Bool.eqb (Nat.testbit k (n - 1 - d)) (negb s)).
  { intros k ch E. rewrite <- Hc in E. apply eq_iff_eq_true. unfold ext_cond. rewrite forallb_forall. split.
    - intros H. specialize (H d ltac:(apply in_seq; lia)). destruct (child_coord n _ k ch d W E Hd) as (E1 & _). rewrite E1, rem_bit in H by (apply N; lia).
      unfold bias3 in H. rewrite nth_map_seq in H by lia. cbv zeta in H. rewrite nth_direct, Nat.eqb_refl in H by exact Hd. unfold bit in H.
      destruct s, (Nat.testbit k (n - 1 - d)); cbn in *; congruence.
    - intros H i Hi. apply in_seq in Hi. destruct (child_coord n _ k ch i W E ltac:(lia)) as (E1 & _). rewrite E1, rem_bit by (apply N; lia).
      unfold bias3. rewrite nth_map_seq by lia. cbv zeta. rewrite nth_direct by lia. destruct (Nat.eqb_spec i d) as [->|]; [|reflexivity].
      unfold bit. destruct s, (Nat.testbit k (n - 1 - d)); cbn in *; congruence. }
  clear W N Hc. assert (G : forall cs a, (forall k ch, nth_error cs k = Some ch -> ext_cond n (direct n d (sgn s)) ch = Bool.eqb (Nat.testbit (a + k) (n - 1 - d)) (negb s) /\
      (Bool.eqb (Nat.testbit (a + k) (n - 1 - d)) (negb s) = true -> t_children ch = [])) ->
    ext_list n (direct n d (sgn s)) a cs = map (fun k => [k]) (filter (fun k => Bool.eqb (Nat.testbit k (n - 1 - d)) (negb s)) (seq a (length cs)))).
  { clear. induction cs as [|ch cs IH]; intros a H; [reflexivity|]. cbn [ext_list length seq filter]. destruct (H 0 ch eq_refl) as [E1 E2]. rewrite Nat.add_0_r in E1, E2.
    rewrite E1, (IH (S a)) by (intros k c0 E0; rewrite Nat.add_succ_comm; apply (H (S k)); exact E0).
    destruct (Bool.eqb (Nat.testbit a (n - 1 - d)) (negb s)) eqn:Eb; [|reflexivity]. specialize (E2 eq_refl). destruct ch as [l c st e cc]. cbn in E2. subst cc. reflexivity. }
  apply G. intros k ch E. cbn [Nat.add]. split; [now apply X|now apply Hl].
Qed.

Lemma fine_group n t p x d s l : reachable n t -> leaf_at t p x -> d < n -> find_neighbors n t p (direct n d (sgn s)) = Ok l ->
  (forall q, In q l -> length q <= S (length p)) -> (exists q, In q l /\ length p < length q) ->
  length l = 2 ^ (n - 1) /\ forall k q, nth_error l k = Some q -> length q = S (length p) /\
    forall y, subtree t q = Some y -> row_major n d x y k.
Proof.
  intros R Lx Hd E Hl (q0 & Hq0 & Lq0). destruct (nb_shape n t p x d s R Lx Hd) as (l' & E' & _ & _ & HI & Sh). assert (l' = l) by congruence. subst l'. clear E'.
  destruct Sh as [->|[(q & -> & Lq)|(m & y & Lm & Hy & Cy & ->)]]; [contradiction|destruct Hq0 as [->|[]]; lia|].
  pose proof (reachable_good n t R) as (W & L0 & N). destruct (wf_subtree n t m y W Hy) as [Wy Ly]. rewrite L0 in Ly. cbn in Ly.
  assert (Ny : nonneg n y). { clear - W N Hy. revert t W N Hy. induction m as [|k m IH]; intros t W N Hy; cbn [subtree] in Hy; [now injection Hy as <-|].
    destruct (nth_error (t_children t) k) as [ch|] eqn:Ek; [|discriminate]. apply (IH ch); auto; [apply (wf_child n t k ch W Ek)|apply (nonneg_child n t k ch W N Ek)]. }
  assert (Ll : length (t_children y) = 2 ^ n). { destruct y as [? ? ? ? cs]. cbn in *. apply wf_inv in Wy as (_ & [?|[? _]] & _); [contradiction|assumption]. }
  assert (Ex : extremal_leaves n (bias3 n (direct n d (sgn s))) y = map (fun k => [k]) (map (ins (n - 1 - d) (negb s)) (seq 0 (2 ^ (n - 1))))).
  { rewrite <- filter_ins by lia. rewrite <- Ll. rewrite <- (ext_list_children n d s y (t_children y) Wy Ny eq_refl Hd).
    - destruct y as [? ? ? ? cs]. cbn in Cy. rewrite extremal_eq. cbn [t_children]. now destruct cs.
    - intros k ch Ek Bk. destruct (t_children ch) as [|c0 cs0] eqn:Ec; [reflexivity|exfalso].
      destruct (extremal_nonempty n (direct n d (sgn s)) ch (wf_child n y k ch Wy Ek) (nonneg_child n y k ch Wy Ny Ek)) as (r & Hr).
      assert (r <> []). { intros ->. clear - Hr Ec. destruct ch as [a b c e cs]. cbn in Ec. subst cs. rewrite extremal_eq in Hr.
        assert (K : forall i l, ~ In [] (ext_list n (direct n d (sgn s)) i l)).
        { intros i l. revert i. induction l as [|c1 l IH]; intros i H; [contradiction|]. cbn [ext_list] in H. apply in_app_or in H as [H|H]; [|now apply (IH (S i))].
          destruct (ext_cond _ _ c1); [|contradiction]. apply in_map_iff in H as (? & ? & _). discriminate. }
        now apply (K 0 (c0 :: cs0)). }
      assert (Hin : In (m ++ k :: r) (map (app m) (extremal_leaves n (bias3 n (direct n d (sgn s))) y))).
      { apply in_map. destruct y as [a b c e cs]. cbn [t_children] in *. rewrite extremal_eq. destruct cs as [|c1 cs1] eqn:Ecs; [contradiction|]. rewrite <- Ecs in *. clear Ecs c1 cs1.
        assert (X : ext_cond n (direct n d (sgn s)) ch = true).
        { unfold ext_cond. apply forallb_forall. intros i Hi. apply in_seq in Hi. destruct (child_coord n _ k ch i Wy Ek ltac:(lia)) as (E1 & _). rewrite E1, rem_bit by (apply Ny; lia).
          unfold bias3. rewrite nth_map_seq by lia. cbv zeta. rewrite nth_direct by lia. destruct (Nat.eqb_spec i d) as [->|]; [|reflexivity].
          unfold bit. apply eqb_prop in Bk. rewrite Bk. now destruct s. }
        clear - Ek X Hr. assert (G : forall a, In ((a + k) :: r) (ext_list n (direct n d (sgn s)) a cs)).
        { revert k Ek. induction cs as [|c1 cs IH]; intros k E a; [now destruct k|]. cbn [ext_list]. apply in_or_app. destruct k as [|k]; cbn [nth_error] in E.
          - injection E as ->. left. rewrite X, Nat.add_0_r. now apply in_map.
          - right. rewrite <- Nat.add_succ_comm. now apply IH. }
        apply (G 0). }
      specialize (Hl _ Hin). rewrite app_length in Hl. cbn in Hl. destruct r; [contradiction|]. cbn in Hl. lia. }
  rewrite Ex. rewrite !map_length, seq_length. split; [reflexivity|]. intros k q Hk. rewrite !nth_error_map in Hk.
  destruct (nth_error (seq 0 (2 ^ (n - 1))) k) as [k0|] eqn:Es; [|discriminate]. cbn in Hk. injection Hk as <-.
  assert (Lk : k < 2 ^ (n - 1)) by (rewrite <- (seq_length (2 ^ (n - 1)) 0); apply nth_error_Some; congruence).
  apply (nth_error_nth _ _ 0) in Es. rewrite seq_nth in Es by exact Lk. cbn in Es. subst k0. split; [rewrite app_length; cbn; lia|].
  intros z Hz. split. { rewrite (level_length n t _ z R Hz), (level_length n t p x R (proj1 Lx)), app_length. cbn. lia. }
  intros i Hi Hne. rewrite subtree_app, Hy in Hz. cbn [subtree] in Hz. destruct (nth_error (t_children y) _) as [ch|] eqn:Ek; [|discriminate]. injection Hz as ->.
  destruct (child_coord n y _ z i Wy Ek Hi) as (E1 & E2 & _). rewrite E1. f_equal.
  - (* the node has the coordinates of x *)
    f_equal. assert (Iq : In (m ++ [ins (n - 1 - d) (negb s) k]) (map (app m) (extremal_leaves n (bias3 n (direct n d (sgn s))) y))).
    { apply in_map. rewrite Ex. apply (in_map (fun k => [k])), in_map, in_seq. lia. }
    apply HI in Iq as (w & [Hw _] & Sw). rewrite subtree_app, Hy in Hw. cbn [subtree] in Hw. rewrite Ek in Hw. injection Hw as <-.
    destruct Sw as [_ Sw]. destruct (Sw i Hi Hne) as [S1 S2]. unfold lo, hi in S1, S2. rewrite frac_lt in S1, S2. rewrite E1, E2 in S1, S2.
    rewrite Ly, Lm in S1, S2. rewrite <- (level_length n t p x R (proj1 Lx)) in S1, S2. rewrite pow2_S in S1, S2. pose proof (pow2_pos (t_level x)).
    destruct (bit n _ i); cbn [Z.b2z] in *; nia.
  - f_equal. unfold bit. rewrite ins_bit. destruct (Nat.ltb_spec (n - 1 - i) (n - 1 - d)), (Nat.ltb_spec i d); try lia; f_equal; try lia.
    destruct (Nat.eqb_spec (n - 1 - i) (n - 1 - d)); [lia|]. f_equal. lia.
Qed.

(** Only outside of the tree there is no neighbour. *)
Lemma frac_eq a l b m : (frac a l == frac b m)%Q <-> (a * 2 ^ Z.of_nat m = b * 2 ^ Z.of_nat l)%Z.
Proof. unfold frac, Qeq. cbn [Qnum Qden]. rewrite !Z2Pos.id by apply pow2_pos. tauto. Qed.
Lemma frac_0 : (0 == frac 0 0)%Q. Proof. reflexivity. Qed.
Lemma frac_1 : (1 == frac 1 0)%Q. Proof. reflexivity. Qed.

Lemma boundary_coord x d s : at_boundary x d s <-> (if s then coord x d + 1 = 2 ^ Z.of_nat (t_level x) else coord x d = 0)%Z.
Proof.
  unfold at_boundary, hi, lo. destruct s; [rewrite frac_1|rewrite frac_0]; rewrite frac_eq; cbn [Z.of_nat]; rewrite Z.pow_0_r; pose proof (pow2_pos (t_level x)); split; nia.
Qed.

Lemma no_neighbor n t p x d s : reachable n t -> leaf_at t p x -> d < n ->
  (find_neighbors n t p (direct n d (sgn s)) = Ok [] <-> at_boundary x d s).
Proof.
  intros R Lx Hd. destruct (nb_shape n t p x d s R Lx Hd) as (l & E1 & E2 & _ & Hl & _). pose proof (reachable_wf n t R) as (W & L0 & C0).
  assert (Bx : forall i, i < n -> (0 <= coord x i /\ coord x i + 1 <= 2 ^ Z.of_nat (t_level x))%Z).
  { intros i Hi. pose proof (box_inside n t p x i W (proj1 Lx) Hi) as K. assert (Ct : coord t i = 0%Z) by (unfold coord; now rewrite C0, nth_repeat_0).
    rewrite Ct, L0 in K. cbn [Z.of_nat] in K. rewrite Z.pow_0_r in K. lia. }
  split; intros H.
  - assert (l = []) by congruence. subst l. cbn in E2. rewrite (find_neighbor_search n t p x _ (proj1 Lx)) in E2 by (unfold direct; rewrite map_length, seq_length; lia).
    injection E2 as E2. apply search_none in E2. apply boundary_coord. destruct (Z.eq_dec (if s then coord x d + 1 else 2 ^ Z.of_nat (t_level x) - coord x d) (2 ^ Z.of_nat (t_level x))) as [K|K]; [destruct s; lia|exfalso].
    assert (B n (direct n d (sgn s)) x t = true); [|congruence]. apply B_spec. intros i Hi. assert (Ct : coord t i = 0%Z) by (unfold coord; now rewrite C0, nth_repeat_0).
    rewrite Ct, L0, nth_direct by exact Hi. specialize (Bx i Hi). unfold Bd, bs, pt. cbn [Z.of_nat]. rewrite Z.pow_0_r.
    destruct (Nat.eqb_spec i d) as [->|]; [destruct s|]; cbn [sgn Z.ltb Z.compare Z.eqb]; lia.
  - rewrite E1. f_equal. destruct l as [|q l]; [reflexivity|exfalso]. destruct (proj1 (Hl q) (or_introl eq_refl)) as (y & [Hy _] & [S0 _]).
    pose proof (box_inside n t q y d W Hy Hd) as K. assert (Ct : coord t d = 0%Z) by (unfold coord; now rewrite C0, nth_repeat_0).
    rewrite Ct, L0 in K. cbn [Z.of_nat] in K. rewrite Z.pow_0_r in K. unfold at_boundary in H. pose proof (pow2_pos (t_level y)).
    destruct s; cbn [sgn Z.ltb Z.compare] in S0; rewrite H in S0; unfold lo, hi in S0; [rewrite frac_1 in S0|rewrite frac_0 in S0]; rewrite frac_eq in S0; cbn [Z.of_nat] in S0; rewrite Z.pow_0_r in S0; nia.
Qed.
