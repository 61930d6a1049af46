(** The order in which requests of extruded elements are passed on. *)
From Coq Require Import ZArith List Bool Arith Lia Permutation.
From Verif Require Import Outcome Loop Tree_Model Tree_Spec Tree_Proofs Update_Model Update_Spec Update_Proofs1 Update_Proofs8.
Import ListNotations.
Local Open Scope nat_scope.

Definition comb (r o : Z) : Z := if (r =? 0)%Z then o else Z.max r o.
Definition relevant (i len : nat) (cons : list (nat * nat)) : list nat :=
  map fst (filter (fun c => (snd c =? i) && (fst c <? len)) cons).

Lemma relevant_in i len cons o : In o (relevant i len cons) <-> In (o, i) cons /\ o < len.
Proof.
  unfold relevant. rewrite in_map_iff. split.
  - intros ([o' i'] & E & H). cbn in E. subst o'. apply filter_In in H as [H1 H2]. cbn in H2. apply andb_true_iff in H2 as [H2 H3].
    apply Nat.eqb_eq in H2. apply Nat.ltb_lt in H3. subst. auto.
  - intros [H1 H2]. exists (o, i). split; [reflexivity|]. apply filter_In. split; [exact H1|]. cbn. rewrite Nat.eqb_refl. now apply Nat.ltb_lt.
Qed.

Lemma pass_record : forall cons st i, i < length (s_elems st) -> (forall c c', In c cons -> In c' cons -> fst c <> snd c') ->
  record_of (pass_requests cons st) i =
  fold_left comb (map (record_of st) (relevant i (length (s_elems st)) cons)) (record_of st i).
Proof.
  induction cons as [|[o j] cons IH]; intros st i L D; [reflexivity|]. cbn [pass_requests fold_left]. fold (pass_requests cons (pass_one (o, j) st)).
  set (st1 := pass_one (o, j) st).
  assert (L1 : length (s_elems st1) = length (s_elems st)).
  { unfold st1, pass_one. cbn [fst]. destruct (nth_error (s_elems st) o); [apply update_nth_length|reflexivity]. }
  rewrite IH; [|rewrite L1; exact L|intros c c' H H'; apply D; now right]. rewrite L1.
  assert (R1 : forall k, k <> j -> record_of st1 k = record_of st k).
  { intros k Hk. unfold record_of, st1. rewrite pass_one_nth. cbn [fst snd]. destruct (nth_error (s_elems st) o); [|reflexivity].
    destruct (Nat.eqb_spec j k); [congruence|reflexivity]. }
  assert (M : map (record_of st1) (relevant i (length (s_elems st)) cons) = map (record_of st) (relevant i (length (s_elems st)) cons)).
  { apply map_ext_in. intros k Hk. apply R1. apply relevant_in in Hk as [Hk _]. apply (D (k, i) (o, j)); [now right|now left]. }
  rewrite M. unfold relevant at 2. cbn [filter fst snd]. destruct (Nat.eqb_spec j i) as [->|Hne]; cbn [andb].
  - destruct (Nat.ltb_spec o (length (s_elems st))) as [Lo|Lo]; cbn [map fold_left]; fold (relevant i (length (s_elems st)) cons); f_equal.
    + unfold comb, record_of, st1. rewrite pass_one_nth. cbn [fst snd]. rewrite Nat.eqb_refl.
      destruct (nth_error (s_elems st) o) as [eo|] eqn:Eo; [|apply nth_error_None in Eo; lia].
      destruct (nth_error (s_elems st) i) as [ei|] eqn:Ei; [reflexivity|apply nth_error_None in Ei; lia].
    + unfold record_of, st1. rewrite pass_one_nth. cbn [fst]. apply nth_error_None in Lo. now rewrite Lo.
  - fold (relevant i (length (s_elems st)) cons). f_equal. apply R1. congruence.
Qed.

Lemma comb_one l : forall r, (r = 1)%Z -> Forall (fun z => -1 <= z <= 1)%Z l -> fold_left comb l r = 1%Z.
Proof.
  induction l as [|a l IH]; intros r -> F; [reflexivity|]. inversion F; subst. cbn [fold_left]. apply IH; [|assumption]. unfold comb. cbn. lia.
Qed.
Lemma comb_in_one l : forall r, (-1 <= r <= 1)%Z -> In 1%Z l -> Forall (fun z => -1 <= z <= 1)%Z l -> fold_left comb l r = 1%Z.
Proof.
  induction l as [|a l IH]; intros r Hr H F; [destruct H|]. inversion F as [|? ? Ha Fl]; subst. cbn [fold_left].
  destruct H as [->|H]; [apply comb_one; [|assumption]|apply IH; try assumption]; unfold comb; destruct (Z.eqb_spec r 0); lia.
Qed.
Lemma comb_const v l : (v = -1 \/ v = 0)%Z -> forall r, (r = -1 \/ r = 0)%Z -> l <> [] -> Forall (fun z => z = v) l -> fold_left comb l r = v.
Proof.
  intros Hv. induction l as [|a l IH]; intros r Hr N F; [contradiction|]. inversion F; subst. cbn [fold_left].
  assert (E : comb r v = v) by (unfold comb; destruct Hr as [-> | ->], Hv as [-> | ->]; reflexivity).
  rewrite E. destruct l as [|b l]; [reflexivity|]. apply IH; [exact Hv|discriminate|assumption].
Qed.

Lemma comb_perm l l' r : Permutation l l' -> (-1 <= r <= 1)%Z -> Forall (fun z => -1 <= z <= 1)%Z l ->
  (r = 1%Z \/ In 1%Z l) \/ Forall (fun z => z = -1)%Z l \/ ~ In (-1)%Z l ->
  fold_left comb l r = fold_left comb l' r.
Proof.
  intros P Hr F H. assert (F' : Forall (fun z => -1 <= z <= 1)%Z l') by (apply (Permutation_Forall P), F).
  destruct (Z.eq_dec r 1) as [->|Hr1]; [rewrite !comb_one by auto; reflexivity|].
  destruct (in_dec Z.eq_dec 1%Z l) as [I|NI].
  { rewrite !comb_in_one; auto. apply (Permutation_in _ P I). }
  destruct l as [|a l]. { apply Permutation_nil in P. now subst. }
  assert (N' : l' <> []) by (intros ->; symmetry in P; apply Permutation_nil in P; discriminate).
  destruct H as [[H|H]|[H|H]]; try contradiction.
  - rewrite (comb_const (-1)%Z (a :: l)), (comb_const (-1)%Z l'); auto; try lia; try discriminate. apply (Permutation_Forall P), H.
  - assert (Z0 : Forall (fun z => z = 0%Z) (a :: l)).
    { rewrite Forall_forall in *. intros z Hz. pose proof (F z Hz). assert (z <> 1%Z) by (intros ->; contradiction).
      assert (z <> (-1)%Z) by (intros ->; contradiction). lia. }
    rewrite (comb_const 0%Z (a :: l)), (comb_const 0%Z l'); auto; try lia; try discriminate. apply (Permutation_Forall P), Z0.
Qed.

Lemma relevant_perm i len cons cons' : Permutation cons cons' -> Permutation (relevant i len cons) (relevant i len cons').
Proof.
  intros P. unfold relevant. apply Permutation_map. induction P as [|x l l' P IH|x y l|l1 l2 l3 P1 IH1 P2 IH2]; cbn [filter].
  - constructor.
  - destruct ((snd x =? i) && (fst x <? len)); [constructor|]; exact IH.
  - destruct ((snd x =? i) && (fst x <? len)), ((snd y =? i) && (fst y <? len)); try apply Permutation_refl. apply perm_swap.
  - eapply Permutation_trans; eauto.
Qed.

Lemma decide_record ref unref st i : i < length (s_elems st) -> record_of (decide ref unref st) i = wish ref unref i.
Proof.
  intros L. unfold record_of. rewrite decide_nth. destruct (nth_error (s_elems st) i) eqn:E; [reflexivity|]. apply nth_error_None in E. lia.
Qed.

Lemma order_independent ref unref cons cons' st i : Permutation cons cons' -> i < length (s_elems st) ->
  (forall c c', In c cons -> In c' cons -> fst c <> snd c') -> (forall c, In c cons -> fst c < length (s_elems st)) ->
  (wants_finer ref unref cons st i \/ (forall o, In (o, i) cons -> only_coarser ref unref o) \/ (forall o, In (o, i) cons -> ~ only_coarser ref unref o)) ->
  record_of (pass_requests cons (decide ref unref st)) i = record_of (pass_requests cons' (decide ref unref st)) i.
Proof.
  intros P L D B H. pose proof (decide_length ref unref st) as Ld.
  assert (D' : forall c c', In c cons' -> In c' cons' -> fst c <> snd c').
  { intros c c' H1 H2. apply D; apply (Permutation_in _ (Permutation_sym P)); assumption. }
  rewrite !pass_record by (try rewrite Ld; assumption). rewrite Ld, (decide_record ref unref st i L).
  assert (M : forall cons, map (record_of (decide ref unref st)) (relevant i (length (s_elems st)) cons) = map (wish ref unref) (relevant i (length (s_elems st)) cons)).
  { intros cs. apply map_ext_in. intros o Ho. apply relevant_in in Ho as [_ Ho]. apply decide_record, Ho. }
  rewrite !M. apply comb_perm.
  - apply Permutation_map, relevant_perm, P.
  - apply wish_range.
  - apply Forall_forall. intros z Hz. apply in_map_iff in Hz as (o & <- & _). apply wish_range.
  - destruct H as [[W|(o & O1 & O2 & O3)]|[H|H]].
    + left. left. now apply wish_1.
    + left. right. apply in_map_iff. exists o. split; [now apply wish_1|]. apply relevant_in. auto.
    + right. left. apply Forall_forall. intros z Hz. apply in_map_iff in Hz as (o & <- & Ho). apply relevant_in in Ho as [Ho _]. apply wish_m1, H, Ho.
    + right. right. intros Hz. apply in_map_iff in Hz as (o & E & Ho). apply relevant_in in Ho as [Ho _]. apply (H o Ho). now apply wish_m1.
Qed.
