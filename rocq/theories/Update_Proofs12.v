(** An update without requests. *)
From Coq Require Import ZArith List Bool Arith Lia.
From Verif Require Import Outcome Loop Tree_Model Tree_Spec Tree_Proofs Tree_Neighbors Tree_Flood Update_Model Update_Spec Update_Proofs1
  Update_Proofs2 Update_Proofs3 Update_Proofs4 Update_Proofs7 Update_Proofs8.
Import ListNotations.
Local Open Scope nat_scope.

Lemma needs_dirs_cases n b dir : In dir (needs_dirs n b) ->
  (exists d sign, d < n /\ (sign = 1%Z \/ sign = (-1)%Z) /\ dir = direct n d sign) \/ (b = true /\ edge_direction n dir).
Proof.
  unfold needs_dirs. rewrite in_flat_map. intros (f & Hf & H). apply in_seq in Hf.
  assert (Ff : f / 2 < n) by (apply Nat.div_lt_upper_bound; lia).
  assert (Sg : forall f, face_sign f = 1%Z \/ face_sign f = (-1)%Z) by (intros g; unfold face_sign; destruct (g mod 2 =? 0); auto).
  destruct H as [<-|H]; [left; exists (f / 2), (face_sign f); auto|]. destruct b; [|contradiction]. right. split; [reflexivity|].
  apply in_map_iff in H as (g & <- & Hg). apply in_seq in Hg. assert (Gf : g / 2 < f / 2) by (apply Nat.div_lt_upper_bound; lia).
  assert (Nt : forall k, k < n -> nth k (diag_dir n f g) 0%Z = if k =? g / 2 then face_sign g else if k =? f / 2 then face_sign f else 0%Z).
  { intros k Hk. unfold diag_dir. rewrite (nth_map_seq n (fun k => if k =? g / 2 then face_sign g else nth k (face_dir n f) 0%Z)) by exact Hk.
    destruct (k =? g / 2); [reflexivity|]. unfold face_dir. now rewrite nth_direct by exact Hk. }
  split; [apply diag_dir_length|]. exists (g / 2), (f / 2). split; [exact Gf|]. split; [exact Ff|].
  rewrite !Nt by lia. rewrite !Nat.eqb_refl. destruct (Nat.eqb_spec (f / 2) (g / 2)); [lia|]. split; [apply Sg|]. split; [apply Sg|].
  intros k Hk H1 H2. rewrite Nt by exact Hk. apply Nat.eqb_neq in H1, H2. now rewrite H1, H2.
Qed.

Lemma balanced_needs n st p i : Cons n st -> balanced n st -> elem_at st p = Some i -> record_of st i <> 2%Z -> needs_refine n st p = Ok false.
Proof.
  intros C B Hp R. pose proof C as [Rt _]. destruct (reachable_wf n _ Rt) as (W & _). assert (Xp : exists_at st p = true) by (apply exists_at_spec; eauto).
  destruct (exists_leaf n st p C Xp) as (e & s & Ip). destruct (inf_subtree _ _ _ Ip) as (x & Hx & Ex). injection Ex as Lf _ _.
  assert (Lx : leaf_at (s_tree st) p x) by (split; [exact Hx|apply is_leaf_true; congruence]).
  assert (Ox : occupied st p x) by (split; [exact Lx|exists i; apply (lives_at n st i p C); auto]).
  destruct (needs_refine_ok n st p x Rt Hx) as (b & Eb & Hb). rewrite Eb. f_equal. destruct b; [exfalso|reflexivity].
  destruct (proj1 Hb eq_refl) as (d & q & y & Hd & Ly & T & Xq & L).
  assert (Oy : occupied st q y). { split; [exact Ly|]. apply exists_at_spec in Xq as (j & Hj & Rj). exists j. apply (lives_at n st j q C). auto. }
  destruct (B p x q y Ox Oy) as [B1 B2]. apply needs_dirs_cases in Hd as [(k & sign & Hk & Hs & ->)|[_ Hd]].
  - apply (touches_face n (s_tree st) p x q y k sign W Lx Ly Hk Hs) in T. destruct (B1 k sign Hk Hs T). lia.
  - specialize (B2 d Hd T). lia.
Qed.

Lemma idle_records ref unref cons st : (forall i, i < length (s_elems st) -> ~ only_finer ref unref i /\ ~ only_coarser ref unref i) ->
  forall i e, nth_error (s_elems (asked ref unref cons st)) i = Some e -> e_record e = 0%Z.
Proof.
  intros H. unfold asked, pass_requests.
  assert (Z : forall i e, nth_error (s_elems (decide ref unref st)) i = Some e -> e_record e = 0%Z).
  { intros i e E. rewrite decide_nth in E. destruct (nth_error (s_elems st) i) as [e0|] eqn:E0; [|discriminate]. cbn in E. injection E as <-.
    cbn. destruct (H i) as [H1 H2]; [apply nth_error_Some; congruence|]. rewrite <- (wish_1 ref unref i) in H1. rewrite <- (wish_m1 ref unref i) in H2.
    unfold wish in *. destruct (ref i && negb (unref i)); [lia|]. destruct (unref i && negb (ref i)); lia. }
  revert Z. generalize (decide ref unref st). induction cons as [|c cons IH]; intros s Z; cbn [fold_left]; [exact Z|]. apply IH.
  intros i e E. rewrite pass_one_nth in E. destruct (nth_error (s_elems s) (fst c)) as [o|] eqn:Eo; [|eauto]. destruct (snd c =? i); [|eauto].
  destruct (nth_error (s_elems s) i) as [e0|] eqn:E0; [|discriminate]. cbn in E. injection E as <-. cbn. rewrite (Z i e0 E0), (Z _ o Eo). reflexivity.
Qed.

Lemma idle_update n surf ref unref cons st : settled n st -> covered st -> (forall i e, nth_error (s_elems st) i = Some e -> e_record e <> 2%Z) ->
  balanced n st -> (forall i, i < length (s_elems st) -> ~ only_finer ref unref i /\ ~ only_coarser ref unref i) ->
  forall fuel, 0 < fuel -> update_mesh fuel n surf ref unref cons st = Ok (asked ref unref cons st).
Proof.
  intros S0 Cv R0 B H fuel L. rewrite update_eq. pose proof (asked_cons ref unref cons st n S0) as C. pose proof (idle_records ref unref cons st H) as Z.
  set (sa := asked ref unref cons st) in *. assert (Zr : forall i, record_of sa i = 0%Z \/ record_of sa i = 2%Z).
  { intros i. unfold record_of. destruct (nth_error (s_elems sa) i) as [e|] eqn:E; [left; eauto|auto]. }
  assert (Rf : forall d, refine_by_record n surf d sa = Ok sa).
  { intros d. apply ofold_same. intros i _. unfold refine_one. destruct (tree_of sa i); [|reflexivity]. destruct (Z.eqb_spec (record_of sa i) 1); [|reflexivity].
    destruct (Zr i); lia. }
  rewrite Rf. cbn [bind]. rewrite Rf. cbn [bind]. destruct fuel as [|fuel]; [lia|]. cbn [unrefine_loop]. unfold unrefine_sweep.
  rewrite ofold_same. 2:{ intros i _. unfold unrefine_one. destruct (tree_of sa i); [|reflexivity]. destruct (Z.eqb_spec (record_of sa i) (-1)); [|reflexivity].
    destruct (Zr i); lia. }
  cbn [bind]. assert (Er : reset_denied sa = sa).
  { unfold reset_denied. rewrite (map_ext_in _ (fun e => e)); [rewrite map_id; now destruct sa|]. intros e He. apply In_nth_error in He as (i & Hi).
    now rewrite (Z i e Hi). }
  rewrite Er. unfold unfill. rewrite Nat.sub_diag. cbn [seq fold_left]. rewrite (flood_fil n surf fuel sa C (asked_fil ref unref cons st n S0 Cv)). cbn [bind].
  cbn [smooth_loop]. rewrite ofold_same.
  - cbn [bind]. rewrite Rf. cbn [bind]. rewrite Rf. reflexivity.
  - intros i _. unfold mark_one. destruct (tree_of sa i) as [p|] eqn:Et; [|reflexivity]. destruct (Z.eqb_spec (record_of sa i) 2) as [E|E]; [reflexivity|].
    apply (tree_of_at n sa i p C) in Et. rewrite (balanced_needs n sa p i C); auto. clear - B S0 R0 C.
    assert (Oc : forall p x, occupied sa p x -> occupied st p x).
    { intros p x [Lx (i & Hi)]. unfold sa in Lx. rewrite asked_tree in Lx. split; [exact Lx|]. exists i. destruct Hi as (x' & e & H1 & H2 & H3 & H4).
      unfold sa in H1. rewrite asked_tree in H1. destruct (asked_back ref unref cons st i e H3) as (e0 & K1 & _). exists x', e0. repeat split; eauto. }
    intros p x q y Ox Oy. apply (B p x q y); auto.
Qed.
