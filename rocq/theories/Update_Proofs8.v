(** Requests, and [update] as a whole. *)
From Coq Require Import ZArith List Bool Arith Lia Permutation.
From Verif Require Import Outcome Loop Tree_Model Tree_Spec Tree_Proofs Tree_Neighbors Tree_Flood Update_Model Update_Spec
  Update_Proofs1 Update_Proofs2 Update_Proofs3 Update_Proofs4 Update_Proofs5 Update_Proofs6 Update_Proofs7.
Import ListNotations.
Local Open Scope nat_scope.

(** ** [decide] *)
Definition wish (ref unref : nat -> bool) (i : nat) : Z :=
  (if ref i && negb (unref i) then 1 else if unref i && negb (ref i) then -1 else 0)%Z.
Lemma nth_error_enum {A} (l : list A) : forall s i, nth_error (combine (seq s (length l)) l) i = option_map (fun a => (s + i, a)) (nth_error l i).
Proof.
  induction l as [|a l IH]; intros s [|i]; cbn; try reflexivity; [now rewrite Nat.add_0_r|]. rewrite IH.
  destruct (nth_error l i); [|reflexivity]. cbn. f_equal. f_equal. lia.
Qed.
Lemma decide_nth ref unref st i : nth_error (s_elems (decide ref unref st)) i =
  option_map (put_record (wish ref unref i)) (nth_error (s_elems st) i).
Proof.
  cbn [decide s_elems]. rewrite nth_error_map, nth_error_enum. destruct (nth_error (s_elems st) i); reflexivity.
Qed.
Lemma wish_1 ref unref i : wish ref unref i = 1%Z <-> only_finer ref unref i.
Proof. unfold wish, only_finer. destruct (ref i), (unref i); cbn; split; intuition (try discriminate). Qed.
Lemma wish_m1 ref unref i : wish ref unref i = (-1)%Z <-> only_coarser ref unref i.
Proof. unfold wish, only_coarser. destruct (ref i), (unref i); cbn; split; intuition (try discriminate). Qed.
Lemma wish_range ref unref i : (-1 <= wish ref unref i <= 1)%Z.
Proof. unfold wish. destruct (ref i), (unref i); cbn; lia. Qed.

(** ** [pass_requests] *)
Definition bounded (st : state) : Prop := forall i e, nth_error (s_elems st) i = Some e -> (-1 <= e_record e <= 1)%Z.

Lemma pass_one_nth c st j : nth_error (s_elems (pass_one c st)) j =
  match nth_error (s_elems st) (fst c) with
  | Some o => if snd c =? j then option_map (fun e => mk_elem (e_path e) (e_def e)
                       (if (e_record e =? 0)%Z then e_record o else Z.max (e_record e) (e_record o)) (e_locked e || e_locked o)) (nth_error (s_elems st) j)
              else nth_error (s_elems st) j
  | None => nth_error (s_elems st) j
  end.
Proof. unfold pass_one. destruct (nth_error (s_elems st) (fst c)); [|reflexivity]. cbn [s_elems]. apply nth_error_update_nth. Qed.

Definition kept (st st' : state) : Prop :=
  s_tree st' = s_tree st /\ length (s_elems st') = length (s_elems st) /\
  forall j e, nth_error (s_elems st) j = Some e -> exists e', nth_error (s_elems st') j = Some e' /\ e_path e' = e_path e /\ e_def e' = e_def e /\
     (e_locked e = true -> e_locked e' = true) /\ (e_record e = 1%Z -> e_record e' = 1%Z).
Lemma kept_refl st : kept st st.
Proof. split; [reflexivity|]. split; [reflexivity|]. intros j e H. exists e. auto. Qed.
Lemma kept_trans a b c : kept a b -> kept b c -> kept a c.
Proof.
  intros (T1 & L1 & H1) (T2 & L2 & H2). split; [congruence|]. split; [congruence|]. intros j e H.
  destruct (H1 j e H) as (e1 & A1 & A2 & A3 & A4 & A5). destruct (H2 j e1 A1) as (e2 & B1 & B2 & B3 & B4 & B5).
  exists e2. split; [exact B1|]. split; [congruence|]. split; [congruence|]. split; auto.
Qed.

Lemma pass_one_kept c st : bounded st -> kept st (pass_one c st) /\ bounded (pass_one c st).
Proof.
  intros B. split.
  - split; [unfold pass_one; now destruct (nth_error (s_elems st) (fst c))|].
    split; [unfold pass_one; destruct (nth_error (s_elems st) (fst c)); [apply update_nth_length|reflexivity]|].
    intros j e H. rewrite pass_one_nth, H. destruct (nth_error (s_elems st) (fst c)) as [o|] eqn:Eo; [|exists e; auto].
    destruct (snd c =? j); [|exists e; auto]. cbn. eexists. split; [reflexivity|]. cbn. split; [reflexivity|]. split; [reflexivity|]. split.
    + intros ->. reflexivity.
    + intros E. rewrite E. cbn. pose proof (B _ _ Eo). lia.
  - intros j e H. rewrite pass_one_nth in H. destruct (nth_error (s_elems st) (fst c)) as [o|] eqn:Eo; [|apply (B _ _ H)].
    destruct (snd c =? j); [|apply (B _ _ H)]. destruct (nth_error (s_elems st) j) as [e0|] eqn:E0; [|discriminate]. cbn in H. injection H as <-. cbn.
    pose proof (B _ _ Eo). pose proof (B _ _ E0). destruct (e_record e0 =? 0)%Z; lia.
Qed.

Lemma pass_kept cons : forall st, bounded st -> kept st (pass_requests cons st) /\ bounded (pass_requests cons st).
Proof.
  induction cons as [|c cons IH]; intros st B; cbn [pass_requests fold_left]; [split; [apply kept_refl|exact B]|].
  destruct (pass_one_kept c st B) as [K1 B1]. fold (pass_requests cons (pass_one c st)). destruct (IH _ B1) as [K2 B2].
  split; [eapply kept_trans; eauto|exact B2].
Qed.

Lemma pass_from cons : forall st o i eo, bounded st -> In (o, i) cons -> nth_error (s_elems st) o = Some eo -> i < length (s_elems st) ->
  exists e', nth_error (s_elems (pass_requests cons st)) i = Some e' /\
    (e_record eo = 1%Z -> e_record e' = 1%Z) /\ (e_locked eo = true -> e_locked e' = true).
Proof.
  induction cons as [|c cons IH]; intros st o i eo B Hin Ho Hi; [destruct Hin|]. cbn [pass_requests fold_left].
  fold (pass_requests cons (pass_one c st)). destruct (pass_one_kept c st B) as [K1 B1]. destruct Hin as [->|Hin].
  - destruct (nth_error (s_elems st) i) as [ei|] eqn:Ei; [|apply nth_error_None in Ei; lia].
    pose proof (pass_one_nth (o, i) st i) as E. cbn [fst snd] in E. rewrite Ho, Nat.eqb_refl, Ei in E. cbn in E.
    destruct (proj2 (proj2 (proj1 (pass_kept cons _ B1))) i _ E) as (e' & P1 & P2 & P3 & P4 & P5).
    exists e'. split; [exact P1|]. split.
    + intros R. apply P5. cbn. rewrite R. pose proof (B _ _ Ei). destruct (e_record ei =? 0)%Z; lia.
    + intros R. apply P4. cbn. rewrite R. apply orb_true_r.
  - destruct (proj2 (proj2 K1) o eo Ho) as (eo' & Q1 & Q2 & Q3 & Q4 & Q5).
    destruct (IH (pass_one c st) o i eo' B1 Hin Q1) as (e' & P1 & P2 & P3); [rewrite (proj1 (proj2 K1)); exact Hi|].
    exists e'. split; [exact P1|]. auto.
Qed.

Lemma pass_other cons : forall st i, (forall o, ~ In (o, i) cons) -> nth_error (s_elems (pass_requests cons st)) i = nth_error (s_elems st) i.
Proof.
  induction cons as [|c cons IH]; intros st i H; [reflexivity|]. cbn [pass_requests fold_left]. fold (pass_requests cons (pass_one c st)).
  rewrite IH; [|intros o K; apply (H o); now right]. rewrite pass_one_nth. destruct (nth_error (s_elems st) (fst c)); [|reflexivity].
  destruct (Nat.eqb_spec (snd c) i) as [E|]; [|reflexivity]. exfalso. apply (H (fst c)). left. destruct c; cbn in *. now subst.
Qed.

(** the state after the requests are known *)
Definition asked ref unref cons st := pass_requests cons (decide ref unref st).

Lemma decide_bounded ref unref st : bounded (decide ref unref st).
Proof.
  intros i e H. rewrite decide_nth in H. destruct (nth_error (s_elems st) i); [|discriminate]. cbn in H. injection H as <-. apply wish_range.
Qed.
Lemma decide_length ref unref st : length (s_elems (decide ref unref st)) = length (s_elems st).
Proof. cbn. rewrite map_length, combine_length, seq_length. lia. Qed.

Section Asked.
  Context (ref unref : nat -> bool) (cons : list (nat * nat)) (st : state).
  Let sa := asked ref unref cons st.
  Lemma asked_tree : s_tree sa = s_tree st.
  Proof. apply (pass_kept cons _ (decide_bounded ref unref st)). Qed.
  Lemma asked_length : length (s_elems sa) = length (s_elems st).
  Proof. etransitivity; [apply (pass_kept cons _ (decide_bounded ref unref st))|apply decide_length]. Qed.
  Lemma asked_bounded : bounded sa.
  Proof. apply (pass_kept cons _ (decide_bounded ref unref st)). Qed.
  Lemma asked_nth i e : nth_error (s_elems st) i = Some e -> exists e', nth_error (s_elems sa) i = Some e' /\ e_path e' = e_path e /\ e_def e' = e_def e /\
    (e_locked e = true -> e_locked e' = true) /\ (only_finer ref unref i -> e_record e' = 1%Z).
  Proof.
    intros H. destruct (pass_kept cons _ (decide_bounded ref unref st)) as [(_ & _ & K) _].
    destruct (K i (put_record (wish ref unref i) e)) as (e' & K1 & K2 & K3 & K4 & K5); [rewrite decide_nth, H; reflexivity|].
    exists e'. split; [exact K1|]. split; [exact K2|]. split; [exact K3|]. split; [exact K4|]. intros W. apply K5. cbn. now apply wish_1.
  Qed.
  Lemma asked_back i e' : nth_error (s_elems sa) i = Some e' -> exists e, nth_error (s_elems st) i = Some e /\ e_path e' = e_path e /\ e_def e' = e_def e /\
    (e_locked e = true -> e_locked e' = true).
  Proof.
    intros H. assert (L : i < length (s_elems st)) by (rewrite <- asked_length; apply nth_error_Some; congruence).
    destruct (nth_error (s_elems st) i) as [e|] eqn:E; [|apply nth_error_None in E; lia].
    destruct (asked_nth i e E) as (e2 & K1 & K2 & K3 & K4 & _). rewrite K1 in H. injection H as <-. exists e. auto.
  Qed.
  Lemma asked_finer i : i < length (s_elems st) -> wants_finer ref unref cons st i -> record_of sa i = 1%Z.
  Proof.
    intros L [W|(o & Ho & Lo & W)].
    - destruct (nth_error (s_elems st) i) as [e|] eqn:E; [|apply nth_error_None in E; lia].
      destruct (asked_nth i e E) as (e' & K1 & _ & _ & _ & K5). rewrite (record_of_nth _ _ _ K1). auto.
    - destruct (nth_error (s_elems st) o) as [eo|] eqn:E; [|apply nth_error_None in E; lia].
      destruct (pass_from cons (decide ref unref st) o i (put_record (wish ref unref o) eo) (decide_bounded ref unref st) Ho) as (e' & K1 & K2 & _).
      + rewrite decide_nth, E. reflexivity.
      + rewrite decide_length. exact L.
      + fold (asked ref unref cons st) in K1. fold sa in K1. rewrite (record_of_nth _ _ _ K1). apply K2. cbn. now apply wish_1.
  Qed.
  Lemma asked_coarser i : record_of sa i = (-1)%Z -> wants_coarser ref unref cons st i.
  Proof.
    intros H. assert (L : i < length (s_elems st)).
    { rewrite <- asked_length. apply nth_error_Some. intros K. unfold record_of in H. rewrite K in H. discriminate. }
    split; [intros W; rewrite (asked_finer i L W) in H; discriminate|].
    destruct (in_dec Nat.eq_dec i (map snd cons)) as [K|K].
    - right. apply in_map_iff in K as ([o i'] & E & K). cbn in E. subst i'. eauto.
    - left. destruct (nth_error (s_elems st) i) as [e|] eqn:E; [|apply nth_error_None in E; lia].
      assert (N : nth_error (s_elems sa) i = Some (put_record (wish ref unref i) e)).
      { unfold sa, asked. rewrite pass_other; [rewrite decide_nth, E; reflexivity|]. intros o Ho. apply K. apply in_map_iff. exists (o, i). auto. }
      rewrite (record_of_nth _ _ _ N) in H. cbn in H. now apply wish_m1.
  Qed.
  Lemma asked_unlocked i e' : nth_error (s_elems sa) i = Some e' -> e_locked e' = false -> unlocked cons st i.
  Proof.
    intros H L. split.
    - destruct (asked_back i e' H) as (e & K1 & _ & _ & K4). exists e. split; [exact K1|]. destruct (e_locked e); [|reflexivity].
      rewrite K4 in L by reflexivity. discriminate.
    - intros o eo Ho Eo. destruct (e_locked eo) eqn:El; [|reflexivity].
      destruct (pass_from cons (decide ref unref st) o i (put_record (wish ref unref o) eo) (decide_bounded ref unref st) Ho) as (e2 & K1 & _ & K3).
      + rewrite decide_nth, Eo. reflexivity.
      + rewrite decide_length, <- asked_length. apply nth_error_Some. congruence.
      + fold (asked ref unref cons st) in K1. fold sa in K1. rewrite K1 in H. injection H as <-. rewrite K3 in L by exact El. discriminate.
  Qed.
  Lemma asked_cons n : settled n st -> Cons n sa.
  Proof.
    intros [R H]. split; [rewrite asked_tree; exact R|]. intros p lf z s E. unfold inf in E. rewrite asked_tree in E.
    unfold info in E. destruct (subtree (s_tree st) p) as [x|] eqn:Ex; [|discriminate]. injection E as E1 E2 E3.
    destruct (H p x z Ex E2) as (Lx & i & e & -> & K1 & K2). destruct (asked_nth i e K1) as (e' & P1 & P2 & _).
    exists i, e'. split; [reflexivity|]. split; [exact P1|]. split; [congruence|]. intros _. rewrite <- E1. now apply is_leaf_true.
  Qed.
  Lemma asked_not2 i e : nth_error (s_elems sa) i = Some e -> (e_record e <> 2)%Z.
  Proof. intros H. pose proof (asked_bounded i e H). lia. Qed.
  Lemma asked_whole n : settled n st -> linked st -> Whole sa.
  Proof.
    intros S0 L i e p H1 H2 _. destruct (asked_back i e H1) as (e0 & K1 & K2 & _). rewrite K2 in H2.
    destruct (L i e0 p K1 H2) as (x & X1 & X2). unfold elem_at. rewrite asked_tree, X1, X2, Nat2Z.id. reflexivity.
  Qed.
  Lemma asked_fil n : settled n st -> covered st -> Fil sa.
  Proof.
    intros S0 Cv q e s H. unfold inf in H. rewrite asked_tree in H. unfold info in H.
    destruct (subtree (s_tree st) q) as [x|] eqn:Ex; [|discriminate]. injection H as E1 E2 E3.
    destruct (t_elem x) as [z|] eqn:Ez.
    - destruct (proj2 S0 q x z Ex Ez) as (_ & i & e0 & -> & K1 & K2). destruct (asked_nth i e0 K1) as (e' & P1 & _).
      apply exists_at_spec. exists i. split; [unfold elem_at; rewrite asked_tree, Ex, Ez, Nat2Z.id; reflexivity|].
      rewrite (record_of_nth _ _ _ P1). apply (asked_not2 i e' P1).
    - exfalso. apply (Cv q x); [|exact Ez]. split; [exact Ex|]. now apply is_leaf_true.
  Qed.
  Lemma asked_surf : no_surface st -> NoSurf sa.
  Proof.
    intros N q lf e s H. unfold inf in H. rewrite asked_tree in H. unfold info in H.
    destruct (subtree (s_tree st) q) as [x|] eqn:Ex; [|discriminate]. injection H as _ _ <-. apply (N q x Ex).
  Qed.
End Asked.

(** ** the whole of [update] *)
Lemma update_eq fuel n surf ref unref cons st :
  update_mesh fuel n surf ref unref cons st =
  bind (let! st := refine_by_record n surf false (asked ref unref cons st) in refine_by_record n surf true st)
    (fun s1 => let! s2 := unrefine_loop fuel n (container (asked ref unref cons st)) s1 in
       let! s3 := flood_loop' fuel n surf (unfill (length (s_elems (asked ref unref cons st))) (reset_denied s2)) in
       smooth_loop fuel n surf s3).
Proof.
  unfold update_mesh. cbn zeta. fold (asked ref unref cons st).
  destruct (refine_by_record n surf false (asked ref unref cons st)) as [s| | |]; reflexivity.
Qed.

Lemma refined_no1' n surf sa s1 : Cons n sa -> finer n surf sa s1 -> strict n sa s1 ->
  (forall q i, elem_at sa q = Some i -> record_of sa i = 1%Z -> record_of s1 i = 2%Z /\ exists s, inf s1 q = Some (false, Some (Z.of_nat i), s)) -> No1 s1.
Proof.
  intros C F S0 D q i H. destruct (Nat.lt_ge_cases i (length (s_elems sa))) as [L|L].
  - destruct (st_rec _ _ _ S0 i L) as [E|[E E']]; [|congruence]. rewrite E. intros K.
    destruct (inf sa q) as [v|] eqn:Ei.
    + assert (Hn : inf sa q <> None) by congruence. destruct (f_node _ _ _ _ F q Hn) as [_ A]. rewrite H in A. symmetry in A.
      destruct (D q i A K) as [X _]. congruence.
    + pose proof (st_newnode _ _ _ S0 q i Ei H). lia.
  - destruct (elem_at_cons n s1 q i (f_cons _ _ _ _ F) H) as (e & _ & _ & E & _). rewrite (record_of_nth _ _ _ E).
    rewrite (st_new _ _ _ S0 i e L E). discriminate.
Qed.

Lemma update_safe n surf ref unref cons st fuel : settled n st ->
  update_mesh fuel n surf ref unref cons st = NoFuel \/
  exists st', update_mesh fuel n surf ref unref cons st = Ok st' /\ consistent n st' /\ balanced n st'.
Proof.
  intros S0. rewrite update_eq. set (sa := asked ref unref cons st).
  pose proof (asked_cons ref unref cons st n S0) as C. fold sa in C.
  destruct (refine_both n surf sa C) as (s1 & E1 & F1 & St1 & D1). rewrite E1. cbn [bind].
  pose proof (refined_no1' n surf sa s1 C F1 St1 D1) as N1.
  destruct (unrefine_ok n (container sa) fuel s1 (f_cons _ _ _ _ F1)) as [K|(s2 & E2 & F2)]; [left; now rewrite K|].
  rewrite E2. cbn [bind]. pose proof (coarser_no1 n s1 s2 (f_cons _ _ _ _ F1) F2 N1) as N2.
  pose proof (reset_cons n s2 (c_cons _ _ _ F2)) as C3.
  destruct (unfill_ok n (length (s_elems sa)) (reset_denied s2) C3) as (C4 & _ & N4). specialize (N4 (reset_no1 s2 N2)).
  destruct (flood_ok n surf fuel (unfill (length (s_elems sa)) (reset_denied s2)) C4) as [K|(s3 & E3 & (C5 & _ & N5))]; [left; now rewrite K|].
  rewrite E3. cbn [bind]. destruct (smooth_ok n surf fuel s3 C5 (N5 N4)) as [K|(s4 & E4 & F4 & N6 & Bal)]; [now left|right].
  exists s4. split; [exact E4|]. split; [apply consistent_Cons, (f_cons _ _ _ _ F4)|exact Bal].
Qed.

Lemma filled_Fil n st : Cons n st -> (Fil st <-> filled st).
Proof.
  intros C. split.
  - intros F p x [H1 H2]. assert (K : inf st p = Some (true, t_elem x, t_status x)).
    { unfold inf, info. rewrite H1. apply is_leaf_true in H2. now rewrite H2. }
    pose proof (F _ _ _ K) as E. apply exists_at_spec in E as (i & E1 & E2). exists i. apply (lives_at n st i p C). auto.
  - intros F q e s H. destruct (inf_subtree _ _ _ H) as (x & Hx & Ev). injection Ev as Ev _ _. symmetry in Ev. apply is_leaf_true in Ev.
    destruct (F q x (conj Hx Ev)) as [i Hi]. apply exists_at_spec. exists i. now apply (lives_at n st i q C).
Qed.

Lemma update_complete n surf ref unref cons st :
  settled n st -> covered st -> linked st -> no_surface st -> (forall q, surf q = false) ->
  exists fuel0, forall fuel, fuel0 <= fuel -> exists st', update_mesh fuel n surf ref unref cons st = Ok st' /\
    consistent n st' /\ filled st' /\ no_orphans st' /\ no_surface st' /\ balanced n st' /\
    (forall i p x, subtree (s_tree st) p = Some x -> t_elem x = Some (Z.of_nat i) -> wants_finer ref unref cons st i ->
       exists x', subtree (s_tree st') p = Some x' /\ t_children x' <> []) /\
    (forall q, node_at (s_tree st) q -> ~ node_at (s_tree st') q ->
       exists parent k, q = parent ++ [k] /\
         (forall k', k' < 2 ^ n -> exists x j, leaf_at (s_tree st) (parent ++ [k']) x /\ t_elem x = Some (Z.of_nat j) /\ wants_coarser ref unref cons st j) /\
         (exists k' x j, k' < 2 ^ n /\ leaf_at (s_tree st) (parent ++ [k']) x /\ t_elem x = Some (Z.of_nat j) /\ unlocked cons st j)).
Proof.
  intros S0 Cv Lk Ns Sf. set (sa := asked ref unref cons st).
  pose proof (asked_cons ref unref cons st n S0) as C. fold sa in C.
  pose proof (asked_whole ref unref cons st n S0 Lk) as Wa. fold sa in Wa.
  pose proof (asked_fil ref unref cons st n S0 Cv) as Fa. fold sa in Fa.
  pose proof (asked_surf ref unref cons st Ns) as Na. fold sa in Na.
  destruct (refine_both n surf sa C) as (s1 & E1 & F1 & St1 & D1).
  pose proof (refined_no1' n surf sa s1 C F1 St1 D1) as N1.
  pose proof (f_cons _ _ _ _ F1) as C1.
  destruct (unrefine_total n (container sa) (S (length (asking s1))) s1 C1) as (s2' & _ & _); [lia|]. clear s2'.
  (* the state before smoothing does not depend on the fuel *)
  assert (U : forall k, length (asking s1) < k -> exists s2, unrefine_loop k n (container sa) s1 = Ok s2 /\ coarser n s1 s2).
  { intros k Hk. apply unrefine_total; [exact C1|exact Hk]. }
  assert (Mono : forall k s2, unrefine_loop k n (container sa) s1 = Ok s2 -> forall k', k <= k' -> unrefine_loop k' n (container sa) s1 = Ok s2).
  { clear. intros k. revert s1. induction k as [|k IH]; intros s1 s2 H k' L; [discriminate|]. destruct k' as [|k']; [lia|]. cbn [unrefine_loop] in *.
    destruct (unrefine_sweep n (container sa) s1) as [[s' ch]| | |]; cbn [bind] in *; try discriminate. destruct ch; [|exact H].
    apply (IH s' s2 H). lia. }
  destruct (U (S (length (asking s1))) (Nat.lt_succ_diag_r _)) as (s2 & E2 & F2).
  pose proof (coarser_no1 n s1 s2 C1 F2 N1) as N2.
  pose proof (reset_cons n s2 (c_cons _ _ _ F2)) as C3. set (s3 := reset_denied s2) in *.
  assert (Ns3 : NoSurf s3).
  { intros q lf e s H. apply (c_surf _ _ _ F2 (f_surf _ _ _ _ F1 Sf Na) q lf e s H). }
  assert (Fs3 : Fil s3) by (apply reset_fil, (c_fil _ _ _ F2), (f_fil _ _ _ _ F1), Fa).
  assert (Ws3 : Whole s3) by (apply reset_whole, (c_whole _ _ _ F2), (f_whole _ _ _ _ F1), Wa).
  destruct (smooth_total n surf s3 C3 (reset_no1 s2 N2)) as (k0 & Hk0).
  exists (S (length (asking s1)) + k0). intros fuel Hf. rewrite update_eq. fold sa. rewrite E1. cbn [bind].
  rewrite (Mono _ s2 E2 fuel) by lia. cbn [bind]. fold s3. rewrite (unfill_nosurf _ s3 Ns3).
  destruct fuel as [|fuel]; [lia|]. rewrite (flood_fil n surf fuel s3 C3 Fs3). cbn [bind].
  destruct (Hk0 (S fuel)) as (s4 & E4 & F4 & _ & Bal); [lia|]. exists s4. split; [exact E4|].
  pose proof (f_cons _ _ _ _ F4) as C4.
  split; [now apply consistent_Cons|]. split; [apply (filled_Fil n s4 C4), (f_fil _ _ _ _ F4), Fs3|].
  split; [apply (Whole_no_orphans n s4 C4), (f_whole _ _ _ _ F4), Ws3|].
  split. { intros p x Hx. apply (f_surf _ _ _ _ F4 Sf Ns3 p (is_leaf x) (t_elem x)). unfold inf, info. now rewrite Hx. }
  split; [exact Bal|].
  assert (Ta : s_tree sa = s_tree st) by apply asked_tree.
  split.
  - intros i p x Hx Ez W.
    destruct (proj2 S0 p x (Z.of_nat i) Hx Ez) as (Lx & j & e0 & Ej & K1 & K2). apply Nat2Z.inj in Ej. subst j.
    assert (Li : i < length (s_elems st)) by (apply nth_error_Some; congruence).
    pose proof (asked_finer ref unref cons st i Li W) as R1. fold sa in R1.
    assert (Ea : elem_at sa p = Some i) by (unfold elem_at; rewrite Ta, Hx, Ez, Nat2Z.id; reflexivity).
    destruct (D1 p i Ea R1) as (_ & s & I1).
    (* a leaf below [p] in [s1] *)
    destruct (inf_subtree _ _ _ I1) as (y & Hy & Ev). injection Ev as Ev _ _.
    destruct (reachable_wf n _ (proj1 C1)) as (W1 & _). destruct (wf_subtree n _ p y W1 Hy) as [Wy _].
    destruct (child_exists n y 0 Wy) as [ch Hch].
    { intros K. apply is_leaf_true in K. congruence. } { pose proof (Nat.pow_nonzero 2 n). lia. }
    destruct (leaf_below ch) as (r & w & Hw & Lw).
    assert (Q : inf s1 (p ++ 0 :: r) = Some (true, t_elem w, t_status w)).
    { unfold inf, info. rewrite subtree_app, Hy. cbn [subtree]. rewrite Hch, Hw. apply is_leaf_true in Lw. now rewrite Lw. }
    pose proof (f_fil _ _ _ _ F1 Fa _ _ _ Q) as X. apply exists_at_spec in X as (j & X1 & X2).
    assert (Q0 : inf sa (p ++ 0 :: r) = None).
    { apply (leaf_child sa p (t_elem x) (t_status x)). unfold inf, info. rewrite Ta, Hx. apply is_leaf_true in Lx. now rewrite Lx. }
    pose proof (st_newnode _ _ _ St1 _ j Q0 X1) as Lj.
    destruct (elem_at_cons n s1 _ j C1 X1) as (ej & _ & _ & Ej & _).
    pose proof (st_new _ _ _ St1 j ej Lj Ej) as R0.
    assert (X3 : elem_at s2 (p ++ 0 :: r) = Some j).
    { apply (c_keep _ _ _ F2 _ j X1); rewrite (record_of_nth _ _ _ Ej), R0; discriminate. }
    pose proof (elem_at_inf s2 _ j X3) as X4. destruct (parent_node n s2 p 0 r (c_cons _ _ _ F2) X4) as (pe & ps & X5).
    pose proof (f_in _ _ _ _ F4 p pe ps X5) as X6. destruct (inf_subtree _ _ _ X6) as (x' & Hx' & Ev'). injection Ev' as Ev' _ _.
    exists x'. split; [exact Hx'|]. intros K. apply is_leaf_true in K. congruence.
  - intros q Hq Hnq.
    assert (Qa : inf sa q <> None) by (apply inf_node; rewrite Ta; exact Hq).
    destruct (f_node _ _ _ _ F1 q Qa) as [Q1 _].
    assert (Q2 : inf s2 q = None).
    { destruct (inf s2 q) as [v|] eqn:Ev; [|reflexivity]. exfalso. apply Hnq. apply inf_node. apply (f_node _ _ _ _ F4 q).
      change (inf s2 q <> None). congruence. }
    destruct (c_lost _ _ _ F2 q Q1 Q2) as (parent & k & r & -> & (k' & j & e & K1 & K2 & K3 & K4 & K5) & H2).
    destruct (H2 (f_fil _ _ _ _ F1 Fa)) as [-> Hall]. exists parent, k. split; [reflexivity|].
    (* an element with record -1 in [s1] was there before *)
    assert (Back : forall p0 i, elem_at s1 p0 = Some i -> record_of s1 i = (-1)%Z -> elem_at sa p0 = Some i /\ record_of sa i = (-1)%Z /\
              exists x, leaf_at (s_tree st) p0 x /\ t_elem x = Some (Z.of_nat i)).
    { intros p0 i A R.
      assert (Li : i < length (s_elems sa)).
      { destruct (Nat.lt_ge_cases i (length (s_elems sa))) as [L|L]; [exact L|]. exfalso.
        destruct (elem_at_cons n s1 p0 i C1 A) as (e1 & _ & _ & Ee & _). rewrite (record_of_nth _ _ _ Ee), (st_new _ _ _ St1 i e1 L Ee) in R. discriminate. }
      assert (A0 : elem_at sa p0 = Some i).
      { destruct (inf sa p0) as [v|] eqn:Ev.
        - assert (Hn : inf sa p0 <> None) by congruence. destruct (f_node _ _ _ _ F1 p0 Hn) as [_ A']. congruence.
        - pose proof (st_newnode _ _ _ St1 p0 i Ev A). lia. }
      split; [exact A0|]. split; [destruct (st_rec _ _ _ St1 i Li) as [E|[E E']]; congruence|].
      unfold elem_at in A0. rewrite Ta in A0. destruct (subtree (s_tree st) p0) as [x|] eqn:Ex; [|discriminate].
      destruct (t_elem x) as [z|] eqn:Ez; [|discriminate]. destruct (proj2 S0 p0 x z Ex Ez) as (Lx & j0 & e0 & -> & _).
      rewrite Nat2Z.id in A0. injection A0 as ->. exists x. split; [split; assumption|exact Ez]. }
    split.
    + intros k0' Hk0'. destruct (Hall k0' Hk0') as (i & A & R). destruct (Back _ _ A R) as (_ & Ra & x & Lx & Ex).
      exists x, i. split; [exact Lx|]. split; [exact Ex|]. apply asked_coarser. exact Ra.
    + assert (R : record_of s1 j = (-1)%Z) by (rewrite (record_of_nth _ _ _ K3); exact K4).
      destruct (Back _ _ K2 R) as (A0 & _ & x & Lx & Ex).
      exists k', x, j. split; [exact K1|]. split; [exact Lx|]. split; [exact Ex|].
      destruct (elem_at_cons n sa _ j C A0) as (ea & _ & _ & Ee & _). apply (asked_unlocked ref unref cons st j ea Ee).
      destruct (proj2 (f_grows _ _ _ _ F1) j ea Ee) as (e' & P1 & _ & _ & P4 & _). congruence.
Qed.
