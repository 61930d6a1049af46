(** Proofs about [find_neighbor] and [find_neighbors]. *)
From Coq Require Import ZArith QArith List Bool Arith Lia ZifyBool ZifyNat.
From Verif Require Import Outcome Tree_Model Tree_Spec Tree_Proofs.
Import ListNotations.
Local Open Scope nat_scope.

(** ** leaves *)
Lemma map_id_ext {A} (f : A -> A) l : (forall x, f x = x) -> map f l = l.
Proof. intros H. induction l; cbn; congruence. Qed.

Fixpoint leaves_list (i : nat) (cs : list tree) : list (path * tree) :=
  match cs with
  | [] => []
  | c :: cs' => map (fun px => (i :: fst px, snd px)) (leaves c) ++ leaves_list (S i) cs'
  end.

Lemma leaves_eq l c s e cs :
  leaves (Node l c s e cs) = match cs with [] => [([], Node l c s e cs)] | _ => leaves_list 0 cs end.
Proof. destruct cs as [|x cs]; [reflexivity|]. reflexivity. Qed.

Lemma leaves_list_in i cs p y : In (p, y) (leaves_list i cs) <->
  exists k q x, p = (i + k) :: q /\ nth_error cs k = Some x /\ In (q, y) (leaves x).
Proof.
  revert i. induction cs as [|c cs IH]; intros i; cbn [leaves_list].
  - split; [intros []|]. intros (k & q & x & _ & H & _). now destruct k.
  - rewrite in_app_iff, IH, in_map_iff. split.
    + intros [([q y'] & E & Hin)|(k & q & x & -> & H1 & H2)].
      * cbn in E. inversion E; subst. exists 0, q, c. rewrite Nat.add_0_r. auto.
      * exists (S k), q, x. rewrite <- plus_n_Sm. auto.
    + intros ([|k] & q & x & -> & H1 & H2).
      * left. cbn in H1. inversion H1; subst. exists (q, y). rewrite Nat.add_0_r. auto.
      * right. exists k, q, x. rewrite <- plus_n_Sm. auto.
Qed.

Lemma leaves_in t p y : In (p, y) (leaves t) <-> leaf_at t p y.
Proof.
  revert p. induction t as [l c s e cs IH] using tree_ind'. intros p. rewrite leaves_eq.
  destruct cs as [|c0 cs0] eqn:Ecs.
  - unfold leaf_at. split.
    + intros [E|[]]. inversion E; subst. split; reflexivity.
    + intros [H1 H2]. destruct p as [|i p]; cbn [subtree t_children] in H1; [inversion H1; now left|now destruct i].
  - rewrite <- Ecs in *. assert (Hne : cs <> []) by (rewrite Ecs; discriminate). clear Ecs c0 cs0.
    rewrite leaves_list_in. split.
    + intros (k & q & x & -> & H1 & H2). rewrite Forall_forall in IH.
      apply IH in H2; [|eapply nth_error_In; eassumption]. destruct H2 as [H2 H3]. split; [|exact H3].
      cbn [subtree t_children Nat.add]. now rewrite H1.
    + intros [H1 H2]. destruct p as [|k q]; cbn [subtree t_children] in H1.
      * inversion H1; subst. now cbn in H2.
      * destruct (nth_error cs k) as [x|] eqn:E; [|discriminate]. exists k, q, x. repeat split; auto.
        rewrite Forall_forall in IH. apply IH; [eapply nth_error_In; eassumption|]. split; assumption.
Qed.

Lemma leaves_list_nodup i cs : Forall (fun t => NoDup (map fst (leaves t))) cs -> NoDup (map fst (leaves_list i cs)).
Proof.
  intros H. revert i. induction H as [|c cs Hc H IH]; intros i; cbn [leaves_list map]; [constructor|].
  assert (E : map fst (leaves_list i (c :: cs)) = map (cons i) (map fst (leaves c)) ++ map fst (leaves_list (S i) cs)).
  { cbn [leaves_list]. rewrite map_app. f_equal. now rewrite !map_map. }
  cbn [leaves_list] in E. rewrite E. clear E.
  assert (D : forall p, In p (map (cons i) (map fst (leaves c))) -> ~ In p (map fst (leaves_list (S i) cs))).
  { intros p H1 H2. apply in_map_iff in H1 as (q & <- & _). apply in_map_iff in H2 as ([p' y] & E2 & H2). cbn in E2. subst p'.
    apply leaves_list_in in H2 as (k & q' & x & E3 & _). inversion E3. lia. }
  assert (N1 : NoDup (map (cons i) (map fst (leaves c)))).
  { clear -Hc. induction Hc as [|p l Hp Hc IH]; cbn; constructor; [|exact IH].
    intros H. apply in_map_iff in H as (q & E & Hq). inversion E; subst. contradiction. }
  specialize (IH (S i)). revert N1 D. generalize (map (cons i) (map fst (leaves c))) as l1.
  induction l1 as [|p l1 IH1]; intros N1 D; cbn [app]; [exact IH|]. inversion N1; subst. constructor.
  - rewrite in_app_iff. intros [X|X]; [contradiction|]. apply (D p); [now left|exact X].
  - apply IH1; [assumption|]. intros p' Hp'. apply D. now right.
Qed.

Lemma leaves_nodup t : NoDup (map fst (leaves t)).
Proof.
  induction t as [l c s e cs IH] using tree_ind'. rewrite leaves_eq. destruct cs as [|c0 cs].
  - cbn. constructor; [intros []|constructor].
  - now apply leaves_list_nodup.
Qed.

(** ** one-dimensional touching *)
Definition Td (d C : Z) (L : nat) (c : Z) (l : nat) : Prop :=
  if (d =? 0)%Z then (c * 2 ^ Z.of_nat L < (C + 1) * 2 ^ Z.of_nat l /\ C * 2 ^ Z.of_nat l < (c + 1) * 2 ^ Z.of_nat L)%Z
  else if (0 <? d)%Z then (c * 2 ^ Z.of_nat L <= (C + 1) * 2 ^ Z.of_nat l < (c + 1) * 2 ^ Z.of_nat L)%Z
  else (c * 2 ^ Z.of_nat L < C * 2 ^ Z.of_nat l <= (c + 1) * 2 ^ Z.of_nat L)%Z.

Definition Tdb (d C : Z) (L : nat) (c : Z) (l : nat) : bool :=
  if (d =? 0)%Z then ((c * 2 ^ Z.of_nat L <? (C + 1) * 2 ^ Z.of_nat l) && (C * 2 ^ Z.of_nat l <? (c + 1) * 2 ^ Z.of_nat L))%Z
  else if (0 <? d)%Z then ((c * 2 ^ Z.of_nat L <=? (C + 1) * 2 ^ Z.of_nat l) && ((C + 1) * 2 ^ Z.of_nat l <? (c + 1) * 2 ^ Z.of_nat L))%Z
  else ((c * 2 ^ Z.of_nat L <? C * 2 ^ Z.of_nat l) && (C * 2 ^ Z.of_nat l <=? (c + 1) * 2 ^ Z.of_nat L))%Z.

Lemma Tdb_spec d C L c l : Tdb d C L c l = true <-> Td d C L c l.
Proof. unfold Tdb, Td. destruct (d =? 0)%Z, (0 <? d)%Z; lia. Qed.

Definition touchb (n : nat) (dir : list Z) (x y : tree) : bool :=
  forallb (fun i => Tdb (nth i dir 0%Z) (coord x i) (t_level x) (coord y i) (t_level y)) (seq 0 n).

Lemma touchb_Td n dir x y : touchb n dir x y = true <->
  forall i, i < n -> Td (nth i dir 0%Z) (coord x i) (t_level x) (coord y i) (t_level y).
Proof.
  unfold touchb. rewrite forallb_forall. split.
  - intros H i Hi. apply Tdb_spec, H. apply in_seq. lia.
  - intros H i Hi. apply in_seq in Hi. apply Tdb_spec, H. lia.
Qed.

Lemma touchb_spec n dir x y : touchb n dir x y = true <-> touches n dir x y.
Proof.
  rewrite touchb_Td. unfold touches. split; intros H i Hi; specialize (H i Hi); unfold Td in *.
  - unfold lo, hi. rewrite !frac_lt, !frac_le.
    destruct (Z.eqb_spec (nth i dir 0%Z) 0); [lia|]. destruct (Z.ltb_spec 0 (nth i dir 0%Z)); lia.
  - unfold lo, hi in H. rewrite !frac_lt, !frac_le in H.
    destruct (Z.eqb_spec (nth i dir 0%Z) 0); [lia|]. destruct (Z.ltb_spec 0 (nth i dir 0%Z)); lia.
Qed.

Lemma Td_mono d C L c l (x : bool) : Td d C L (2 * c + Z.b2z x) (S l) -> Td d C L c l.
Proof.
  unfold Td. rewrite pow2_S. pose proof (pow2_pos L). pose proof (pow2_pos l).
  destruct (d =? 0)%Z, (0 <? d)%Z; destruct x; cbn [Z.b2z]; lia.
Qed.

Lemma touchb_mono n dir x : monotone (touchb n dir x) n.
Proof.
  intros y k ch W E. rewrite !touchb_Td. intros H i Hi. specialize (H i Hi).
  destruct (child_coord n y k ch i W E Hi) as (E1 & E2 & _). rewrite E1, E2 in H. eapply Td_mono; exact H.
Qed.

Definition pt (d C : Z) : Z := (C + if (0 <? d)%Z then 1 else 0)%Z.
Definition bs (d : Z) : Z := if (d <? 0)%Z then 1%Z else 0%Z.

Lemma pow2_le l L : l <= L -> exists k, (2 ^ Z.of_nat L = 2 ^ Z.of_nat l * k /\ 0 < k)%Z.
Proof.
  intros H. exists (2 ^ Z.of_nat (L - l))%Z. split; [|apply pow2_pos]. rewrite <- Z.pow_add_r by lia. f_equal. lia.
Qed.

Lemma Td_Bd d C L c l : l <= L -> (Td d C L c l <-> Bd (bs d) (pt d C) L c l).
Proof.
  intros H. destruct (pow2_le l L H) as (k & E & Pk). unfold Td, Bd, bs, pt. rewrite E.
  pose proof (pow2_pos l) as Pm. set (m := (2 ^ Z.of_nat l)%Z) in *. clearbody m.
  destruct (Z.eqb_spec d 0) as [->|Hd].
  - cbn [Z.ltb Z.compare Z.eqb]. rewrite !Z.add_0_r.
    assert (E1 : (c * (m * k) < (C + 1) * m <-> c * k < C + 1)%Z) by nia.
    assert (E2 : (c * (m * k) <= C * m <-> c * k <= C)%Z) by nia. lia.
  - destruct (Z.ltb_spec 0 d), (Z.ltb_spec d 0); try lia; cbn [Z.eqb]; rewrite ?Z.add_0_r; lia.
Qed.

Lemma Td_below d C L c l (x : bool) : L <= l -> Td d C L c l ->
  (Td d C L (2 * c + Z.b2z x) (S l) <-> (if (d =? 0)%Z then True else if (0 <? d)%Z then x = false else x = true)).
Proof.
  intros H. destruct (pow2_le L l H) as (k & E & Pk). unfold Td. rewrite pow2_S, E.
  pose proof (pow2_pos L) as Pm. set (m := (2 ^ Z.of_nat L)%Z) in *. clearbody m.
  destruct (Z.eqb_spec d 0) as [->|Hd].
  - intros [H1 H2]. split; [trivial|]. intros _.
    assert (c < (C + 1) * k)%Z by nia. assert (C * k < c + 1)%Z by nia.
    destruct x; cbn [Z.b2z]; split; nia.
  - destruct (Z.ltb_spec 0 d).
    + intros [H1 H2]. assert (c = (C + 1) * k)%Z by nia. subst c.
      destruct x; cbn [Z.b2z]; (split; [intros [K3 K4]|intros K3]); try reflexivity; try discriminate; try (exfalso; nia). split; nia.
    + intros [H1 H2]. assert (c + 1 = C * k)%Z by nia. replace c with (C * k - 1)%Z in * by lia.
      destruct x; cbn [Z.b2z]; (split; [intros [K3 K4]|intros K3]); try reflexivity; try discriminate; try (exfalso; nia). split; nia.
Qed.

Lemma Bd_Td d C L c l : Bd (bs d) (pt d C) L c l -> Td d C L c l.
Proof.
  unfold Td, Bd, bs, pt. pose proof (pow2_pos l). pose proof (pow2_pos L).
  destruct (Z.eqb_spec d 0) as [->|Hd].
  - cbn [Z.ltb Z.compare Z.eqb]. rewrite !Z.add_0_r. lia.
  - destruct (Z.ltb_spec 0 d), (Z.ltb_spec d 0); try lia; cbn [Z.eqb]; rewrite ?Z.add_0_r; lia.
Qed.

Lemma Bd_below_0 C L c l (x : bool) : L <= l -> Bd 0 C L (2 * c + Z.b2z x) (S l) -> x = false.
Proof.
  intros H. destruct (pow2_le L l H) as (k & E & Pk). unfold Bd. cbn [Z.eqb]. rewrite pow2_S, E.
  pose proof (pow2_pos L) as Pm. set (m := (2 ^ Z.of_nat L)%Z) in *. clearbody m.
  intros [H1 H2]. destruct x; [|reflexivity]. exfalso. cbn [Z.b2z] in *. 
  assert (2 * c + 1 <= 2 * (C * k))%Z by nia. assert (2 * (C * k) < 2 * c + 2)%Z by nia. lia.
Qed.

(** ** neighbours *)
Section Neighbors.
Context (n : nat) (dir : list Z) (x : tree).

Definition pts : list Z := map (fun i => pt (nth i dir 0%Z) (coord x i)) (seq 0 n).
Definition bss : list Z := map (fun i => bs (nth i dir 0%Z)) (seq 0 n).
Definition bias3 : list Z :=
  map (fun i_dim => let d := nth i_dim dir 0%Z in if (d =? 0)%Z then (-1)%Z else if (d <? 0)%Z then 1%Z else 0%Z) (seq 0 n).

Lemma nth_map_seq (f : nat -> Z) i : i < n -> nth i (map f (seq 0 n)) 0%Z = f i.
Proof.
  intros Hi. erewrite nth_indep by (rewrite map_length, seq_length; exact Hi).
  rewrite (map_nth f (seq 0 n) 0 i), seq_nth by exact Hi. reflexivity.
Qed.

Lemma bss_ok : bias_ok n bss.
Proof. intros i Hi. unfold bss. rewrite nth_map_seq by exact Hi. unfold bs. destruct (_ <? 0)%Z; auto. Qed.

Definition B := Bn n (t_level x) pts bss.
Definition T := touchb n dir x.

Lemma B_spec y : B y = true <->
  forall i, i < n -> Bd (bs (nth i dir 0%Z)) (pt (nth i dir 0%Z) (coord x i)) (t_level x) (coord y i) (t_level y).
Proof.
  unfold B. rewrite Bn_spec by apply bss_ok. split; intros H i Hi; specialize (H i Hi); unfold pts, bss in *;
    rewrite !nth_map_seq in * by exact Hi; exact H.
Qed.

Lemma B_T y : B y = true -> T y = true.
Proof. rewrite B_spec. unfold T. rewrite touchb_Td. intros H i Hi. apply Bd_Td; auto. Qed.

Lemma T_B y : t_level y <= t_level x -> T y = B y.
Proof.
  intros H. apply eq_iff_eq_true. rewrite B_spec. unfold T. rewrite touchb_Td.
  split; intros H1 i Hi; specialize (H1 i Hi); now apply Td_Bd.
Qed.

Definition F (t : tree) : list path := map fst (filter (fun py => T (snd py)) (leaves t)).
Fixpoint Flist (i : nat) (cs : list tree) : list path :=
  match cs with
  | [] => []
  | c :: cs' => map (cons i) (F c) ++ Flist (S i) cs'
  end.

Lemma F_leaf l c s e : F (Node l c s e []) = if T (Node l c s e []) then [[]] else [].
Proof. unfold F. cbn [leaves filter map snd]. destruct (T _); reflexivity. Qed.

Lemma F_node l c s e cs : cs <> [] -> F (Node l c s e cs) = Flist 0 cs.
Proof.
  intros Hne. unfold F. rewrite leaves_eq. destruct cs as [|c0 cs]; [contradiction|]. clear Hne.
  generalize 0. generalize (c0 :: cs). clear. induction l as [|c cs IH]; intros i; cbn [leaves_list Flist]; [reflexivity|].
  rewrite filter_app, map_app, IH. f_equal. unfold F. clear IH. induction (leaves c) as [|[p y] l IH]; cbn [map filter snd fst]; [reflexivity|].
  destruct (T y); cbn [map fst]; rewrite IH; reflexivity.
Qed.

Lemma F_none t : wf n t -> T t = false -> F t = [].
Proof.
  intros W H. unfold F. destruct (filter _ (leaves t)) as [|[p y] r] eqn:E; [reflexivity|exfalso].
  assert (In (p, y) (filter (fun py => T (snd py)) (leaves t))) as Hin by (rewrite E; now left).
  apply filter_In in Hin as [Hin Ty]. apply leaves_in in Hin as [Hin _]. cbn in Ty.
  pose proof (mono_subtree T n t p y (touchb_mono n dir x) W Hin Ty). congruence.
Qed.

Lemma Flist_single i cs k ch : nth_error cs k = Some ch ->
  (forall k' ch', nth_error cs k' = Some ch' -> k' <> k -> F ch' = []) -> Flist i cs = map (cons (i + k)) (F ch).
Proof.
  revert i k. induction cs as [|c cs IH]; intros i k E H; [now destruct k|]. cbn [Flist]. destruct k as [|k].
  - cbn in E. inversion E; subst. rewrite Nat.add_0_r.
    assert (G : forall j cs', (forall k' ch', nth_error cs' k' = Some ch' -> F ch' = []) -> Flist j cs' = []).
    { intros j cs'. revert j. induction cs' as [|c' cs' IH']; intros j G; cbn [Flist]; [reflexivity|].
      rewrite (G 0 c' eq_refl). cbn. apply IH'. intros k' ch' E'. now apply (G (S k')). }
    rewrite G; [apply app_nil_r|]. intros k' ch' E'. apply (H (S k') ch' E'). lia.
  - cbn in E. rewrite (H 0 c eq_refl) by lia. cbn [map app]. rewrite (IH (S i) k E).
    + f_equal. f_equal. lia.
    + intros k' ch' E' Hne. apply (H (S k') ch' E'). lia.
Qed.

Lemma Flist_hd i cs k ch q : nth_error cs k = Some ch ->
  (forall k' ch', nth_error cs k' = Some ch' -> k' < k -> F ch' = []) -> hd_error (F ch) = Some q ->
  hd_error (Flist i cs) = Some ((i + k) :: q).
Proof.
  revert i k. induction cs as [|c cs IH]; intros i k E H Hq; [now destruct k|]. cbn [Flist]. destruct k as [|k].
  - cbn in E. inversion E; subst. destruct (F ch) as [|q' r]; [discriminate|]. cbn in *. rewrite Nat.add_0_r. inversion Hq; subst; reflexivity.
  - cbn in E. rewrite (H 0 c eq_refl) by lia. cbn [map app]. rewrite (IH (S i) k E).
    + do 2 f_equal. lia.
    + intros k' ch' E' Hne. apply (H (S k') ch' E'). lia.
    + exact Hq.
Qed.

Definition nonneg (t : tree) : Prop := forall i, i < n -> (0 <= coord t i)%Z.

Lemma nonneg_child t k ch : wf n t -> nonneg t -> nth_error (t_children t) k = Some ch -> nonneg ch.
Proof.
  intros W N E i Hi. destruct (child_coord n t k ch i W E Hi) as (-> & _ & _). specialize (N i Hi).
  destruct (bit n k i); cbn [Z.b2z]; lia.
Qed.

Definition ext_cond (child : tree) : bool :=
  forallb (fun i_dim => (nth i_dim bias3 0 =? -1)%Z || (nth i_dim bias3 0 =? Z.rem (coord child i_dim) 2)%Z) (seq 0 n).

Lemma rem_bit c (b : bool) : (0 <= c)%Z -> Z.rem (2 * c + Z.b2z b) 2 = Z.b2z b.
Proof. intros H. rewrite Z.rem_mod_nonneg by (destruct b; cbn [Z.b2z]; lia). destruct b; cbn [Z.b2z]; lia. Qed.

Lemma ext_cond_T t k ch : wf n t -> nonneg t -> T t = true -> t_level x <= t_level t ->
  nth_error (t_children t) k = Some ch -> ext_cond ch = T ch.
Proof.
  intros W N Ht Hl E. apply eq_iff_eq_true. unfold ext_cond, T in *. rewrite touchb_Td in *. rewrite forallb_forall.
  assert (G : forall i, i < n ->
     ((nth i bias3 0 =? -1)%Z || (nth i bias3 0 =? Z.rem (coord ch i) 2)%Z = true <->
      Td (nth i dir 0%Z) (coord x i) (t_level x) (coord ch i) (t_level ch))).
  { intros i Hi. destruct (child_coord n t k ch i W E Hi) as (E1 & E2 & _). rewrite E1, E2.
    rewrite Td_below by auto. rewrite rem_bit by (now apply N). unfold bias3. rewrite nth_map_seq by exact Hi. cbv zeta.
    destruct (Z.eqb_spec (nth i dir 0%Z) 0); [cbn; tauto|].
    destruct (Z.ltb_spec (nth i dir 0%Z) 0), (Z.ltb_spec 0 (nth i dir 0%Z)); try lia; destruct (bit n k i); cbn; split; intros; congruence. }
  split; intros H i Hi.
  - apply G; [exact Hi|]. apply H. apply in_seq. lia.
  - apply in_seq in Hi. apply G; [lia|]. apply H. lia.
Qed.

Fixpoint ext_list (i : nat) (cs : list tree) : list path :=
  match cs with
  | [] => []
  | child :: cs' => (if ext_cond child then map (cons i) (extremal_leaves n bias3 child) else []) ++ ext_list (S i) cs'
  end.

Lemma extremal_eq l c s e cs :
  extremal_leaves n bias3 (Node l c s e cs) = match cs with [] => [[]] | _ => ext_list 0 cs end.
Proof. destruct cs; reflexivity. Qed.

Lemma extremal_F t : wf n t -> nonneg t -> T t = true -> t_level x <= t_level t \/ t_children t = [] ->
  extremal_leaves n bias3 t = F t.
Proof.
  induction t as [l c s e cs IH] using tree_ind'. intros W N Ht Hl. rewrite extremal_eq.
  destruct cs as [|c0 cs0] eqn:Ecs.
  - rewrite F_leaf. now rewrite Ht.
  - rewrite <- Ecs in *. assert (Hne : cs <> []) by (rewrite Ecs; discriminate). clear Ecs c0 cs0.
    destruct Hl as [Hl|Hl]; [|now cbn in Hl]. rewrite F_node by exact Hne.
    assert (A : Forall (fun ch => (if ext_cond ch then extremal_leaves n bias3 ch else []) = F ch) cs).
    { rewrite Forall_forall in *. intros ch Hin. destruct (In_nth_error _ _ Hin) as [k E].
      rewrite (ext_cond_T _ k ch W N Ht Hl E). destruct (child_level n _ k ch W E) as [El _].
      pose proof (wf_child n _ k ch W E) as Wc.
      destruct (T ch) eqn:Tc.
      - apply IH; auto; [apply (nonneg_child _ k ch W N E)|]. left. rewrite El. lia.
      - symmetry. now apply F_none. }
    clear -A. generalize 0. induction A as [|ch cs Hch A IH]; intros i; cbn [ext_list Flist]; [reflexivity|].
    rewrite <- Hch, IH. destruct (ext_cond ch); reflexivity.
Qed.

Lemma B_covers : covers B n. Proof. apply Bn_covers, bss_ok. Qed.
Lemma B_mono : monotone B n. Proof. apply Bn_monotone, bss_ok. Qed.
Lemma B_excl : exclusive B n. Proof. apply Bn_exclusive, bss_ok. Qed.

Lemma search_node l c s e cs q : wf n (Node l c s e cs) -> cs <> [] -> search B (Node l c s e cs) = Some q ->
  exists k q' ch, q = k :: q' /\ nth_error cs k = Some ch /\ search B ch = Some q' /\
                  forall k' ch', k' < k -> nth_error cs k' = Some ch' -> B ch' = false.
Proof.
  intros W Hne H. cbn [search] in H. destruct (B (Node l c s e cs)) eqn:HB; [|discriminate].
  pose proof (first_found_spec (search B) cs 0) as FS. destruct (first_found (search B) 0 cs) as [p|].
  - inversion H; subst p. destruct FS as (k & q' & ch & -> & H1 & H2 & H3). exists k, q', ch. repeat split; auto.
    intros k' ch' Hk E. apply search_none. eauto.
  - exfalso. destruct (B_covers _ W HB) as (k & ch & E & Bch); [exact Hne|]. cbn [t_children] in E.
    specialize (FS k ch E). apply search_none in FS. congruence.
Qed.

Lemma main_F t q : wf n t -> nonneg t -> t_level t <= t_level x -> search B t = Some q ->
  exists y, subtree t (firstn (t_level x - t_level t) q) = Some y /\
            map (app (firstn (t_level x - t_level t) q)) (extremal_leaves n bias3 y) = F t.
Proof.
  revert q. induction t as [l c s e cs IH] using tree_ind'. intros q W N Hl H.
  assert (HB : B (Node l c s e cs) = true).
  { destruct (B _) eqn:E; [reflexivity|]. apply search_none in E. congruence. }
  destruct (Nat.eq_dec (t_level x) l) as [El|Hneq].
  - exists (Node l c s e cs). cbn [t_level]. rewrite El, Nat.sub_diag. cbn [firstn subtree]. split; [reflexivity|].
    rewrite map_id_ext by reflexivity. apply extremal_F; auto; [now apply B_T|]. left. cbn. lia.
  - destruct cs as [|c0 cs0] eqn:Ecs.
    + exists (Node l c s e []). cbn [search first_found] in H. rewrite HB in H. inversion H; subst. rewrite firstn_nil.
      split; [reflexivity|]. rewrite map_id_ext by reflexivity. apply extremal_F; auto; now apply B_T.
    + rewrite <- Ecs in *. assert (Hne : cs <> []) by (rewrite Ecs; discriminate). clear Ecs c0 cs0.
      destruct (search_node _ _ _ _ _ _ W Hne H) as (k & q' & ch & -> & E & Hs & _).
      destruct (child_level n _ k ch W E) as [Ech _]. cbn [t_level] in *.
      pose proof (wf_child n _ k ch W E) as Wc.
      rewrite Forall_forall in IH.
      destruct (IH ch (nth_error_In _ _ E) q' Wc (nonneg_child _ k ch W N E) ltac:(lia) Hs) as (y & Hy & HF).
      exists y. replace (t_level x - l) with (S (t_level x - t_level ch)) by lia. cbn [firstn subtree t_children].
      rewrite E. split; [exact Hy|]. rewrite F_node by exact Hne.
      rewrite (Flist_single 0 cs k ch E).
      * rewrite <- HF, map_map. reflexivity.
      * intros k' ch' E' Hk. apply F_none; [apply (wf_child n _ k' ch' W E')|].
        destruct (child_level n _ k' ch' W E') as [Ech' _]. cbn [t_level] in Ech'.
        rewrite T_B by lia. destruct (B ch') eqn:B'; [exfalso|reflexivity].
        apply Hk. apply (B_excl _ k' k ch' ch W E' E B').
        destruct (B ch) eqn:B0; [reflexivity|]. apply search_none in B0. congruence.
Qed.

Lemma F_hd t q : wf n t -> search B t = Some q -> hd_error (F t) = Some q.
Proof.
  revert q. induction t as [l c s e cs IH] using tree_ind'. intros q W H.
  assert (HB : B (Node l c s e cs) = true).
  { destruct (B _) eqn:E; [reflexivity|]. apply search_none in E. congruence. }
  destruct cs as [|c0 cs0] eqn:Ecs.
  - cbn [search first_found] in H. rewrite HB in H. inversion H; subst. rewrite F_leaf, (B_T _ HB). reflexivity.
  - rewrite <- Ecs in *. assert (Hne : cs <> []) by (rewrite Ecs; discriminate). clear Ecs c0 cs0.
    destruct (search_node _ _ _ _ _ _ W Hne H) as (k & q' & ch & -> & E & Hs & Hbefore).
    pose proof (wf_child n _ k ch W E) as Wc. rewrite F_node by exact Hne.
    rewrite Forall_forall in IH.
    apply (Flist_hd 0 cs k ch q' E); [|apply IH; auto; eapply nth_error_In; eassumption].
    intros k' ch' E' Hk. apply F_none; [apply (wf_child n _ k' ch' W E')|].
    destruct (child_level n _ k' ch' W E') as [Ech' Lk']. destruct (child_level n _ k ch W E) as [Ech Lk]. cbn [t_level] in *.
    destruct (Nat.le_gt_cases (S l) (t_level x)) as [Hlev|Hlev].
    + rewrite T_B by lia. eauto.
    + destruct (T ch') eqn:T'; [exfalso|reflexivity].
      assert (Bch : B ch = true).
      { destruct (B ch) eqn:B0; [reflexivity|]. apply search_none in B0. congruence. }
      pose proof (B_T _ HB) as Tt. unfold T in T', Tt. rewrite touchb_Td in T', Tt. rewrite B_spec in Bch.
      assert (k <= k'); [|lia]. apply (bit_le n); [assumption..|]. intros i Hi Hbit.
      specialize (T' i Hi). specialize (Tt i Hi). specialize (Bch i Hi).
      destruct (child_coord n _ k ch i W E Hi) as (C1 & C2 & _). rewrite C1, C2 in Bch.
      destruct (child_coord n _ k' ch' i W E' Hi) as (C1' & C2' & _). rewrite C1', C2' in T'. cbn [t_level] in *.
      apply Td_below in T'; [|lia|exact Tt].
      destruct (Z.eqb_spec (nth i dir 0%Z) 0) as [D|D].
      * unfold bs, pt in Bch. rewrite D in Bch. cbn [Z.ltb Z.compare] in Bch. apply Bd_below_0 in Bch; [congruence|lia].
      * apply Bd_Td in Bch. apply Td_below in Bch; [|lia|exact Tt].
        destruct (Z.eqb_spec (nth i dir 0%Z) 0); [contradiction|]. destruct (0 <? nth i dir 0)%Z; congruence.
Qed.
End Neighbors.
