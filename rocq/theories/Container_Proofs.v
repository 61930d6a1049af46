From Coq Require Import ZArith List Bool Lia Sorted.
From Verif Require Import Outcome Container_Model Container_Spec.
Import ListNotations.
Local Open Scope Z_scope.

Lemma vec_get_nat {A} (v : list A) (i : nat) : vec_get v (Z.of_nat i) = of_option_ub (nth_error v i).
Proof.
  unfold vec_get. destruct (Z.ltb_spec (Z.of_nat i) 0) as [H|H]; [lia|]. now rewrite Nat2Z.id.
Qed.

Lemma vec_get_app_mid {A} (pre : list A) (x : A) (post : list A) :
  vec_get (pre ++ x :: post) (Z.of_nat (length pre)) = Ok x.
Proof.
  rewrite vec_get_nat, nth_error_app2 by lia. now rewrite Nat.sub_diag.
Qed.

(** ** erase_if *)
Lemma erase_if_loop_ok {A S} (condition : S -> A -> bool * S) (post pre : list A) st erased :
  erase_if_loop condition (pre ++ post) (length post) (Z.of_nat (length pre)) st erased =
  Ok (erased ++ fst (kept condition post st), snd (kept condition post st)).
Proof.
  revert pre st erased.
  induction post as [|x post IH]; intros pre st erased; cbn [length erase_if_loop kept].
  - cbn [fst snd]. now rewrite app_nil_r.
  - rewrite vec_get_app_mid. cbn [bind].
    destruct (condition st x) as [c st1] eqn:Hc.
    specialize (IH (pre ++ [x]) st1 (if negb c then erased ++ [x] else erased)).
    rewrite <- app_assoc in IH. cbn [app] in IH.
    rewrite app_length in IH. cbn [length] in IH.
    replace (Z.of_nat (length pre + 1)) with (Z.of_nat (length pre) + 1) in IH by lia.
    rewrite IH. destruct (kept condition post st1) as [r st2]. cbn [fst snd].
    destruct c; cbn [negb]; [reflexivity|]. now rewrite <- app_assoc.
Qed.

Lemma erase_if_correct {A S} (condition : S -> A -> bool * S) (vec : list A) st :
  erase_if condition vec st = Ok (kept condition vec st).
Proof.
  unfold erase_if. pose proof (erase_if_loop_ok condition vec [] st []) as H.
  cbn [app length] in H. change (Z.of_nat 0) with 0 in H. rewrite H.
  now destruct (kept condition vec st).
Qed.

Lemma kept_pure {A} (p : A -> bool) (vec : list A) :
  kept (fun (st : unit) x => (p x, tt)) vec tt = (filter (fun x => negb (p x)) vec, tt).
Proof.
  induction vec as [|x l IH]; [reflexivity|]. cbn [kept filter]. rewrite IH. now destruct (p x).
Qed.

Lemma erase_if_filter {A} (p : A -> bool) (vec : list A) :
  erase_if (fun (st : unit) x => (p x, tt)) vec tt = Ok (filter (fun x => negb (p x)) vec, tt).
Proof. now rewrite erase_if_correct, kept_pure. Qed.

(** ** container *)

(* representation: the container holds the pairs [l], strictly increasing serials below next_sn *)
Definition rep {A} (c : container A) (l : list (Z * A)) : Prop :=
  c_vec c = map snd l /\ c_serial_ns c = map fst l /\
  StronglySorted Z.lt (map fst l) /\ Forall (fun sn => 0 <= sn < c_next_sn c) (map fst l).

Lemma rep_init A : rep (container_init A) [].
Proof. repeat split; constructor. Qed.

Lemma StronglySorted_snoc (l : list Z) b :
  StronglySorted Z.lt l -> Forall (fun a => a < b) l -> StronglySorted Z.lt (l ++ [b]).
Proof.
  induction l as [|a l IH]; intros Hs Hf; cbn [app].
  - constructor; constructor.
  - inversion_clear Hs. inversion_clear Hf. constructor; [auto|].
    apply Forall_app. split; [assumption|]. constructor; [assumption|constructor].
Qed.

Lemma rep_emplace {A} (c : container A) l e c' sn :
  0 <= c_next_sn c -> rep c l -> emplace c e = Ok (c', sn) ->
  rep c' (l ++ [(sn, e)]) /\ sn = c_next_sn c /\ c_next_sn c' = c_next_sn c + 1.
Proof.
  unfold emplace. intros Hn (Hv & Hs & Hst & Hf) H.
  destruct (c_next_sn c <? int_max); inversion H; subst; clear H.
  split; [|split; reflexivity].
  unfold rep. cbn [c_vec c_serial_ns c_next_sn]. rewrite !map_app, Hv, Hs. cbn [map fst snd].
  repeat split.
  - apply StronglySorted_snoc; [assumption|]. eapply Forall_impl; [|exact Hf]. cbn. lia.
  - apply Forall_app. split.
    + eapply Forall_impl; [|exact Hf]. cbn. lia.
    + constructor; [lia|constructor].
Qed.

Lemma purge_loop_ok {A} (p : A -> bool) (post pre : list (Z * A)) nx nv ns :
  purge_loop p {| c_next_sn := nx; c_vec := map snd (pre ++ post); c_serial_ns := map fst (pre ++ post) |}
    (length post) (Z.of_nat (length pre)) nv ns =
  Ok (nv ++ map snd (filter (fun x => negb (p (snd x))) post), ns ++ map fst (filter (fun x => negb (p (snd x))) post)).
Proof.
  revert pre nv ns.
  induction post as [|[sn e] post IH]; intros pre nv ns; cbn [length purge_loop].
  - cbn [filter map]. now rewrite !app_nil_r.
  - cbn [c_vec c_serial_ns]. rewrite !map_app. cbn [map fst snd].
    replace (Z.of_nat (length pre)) with (Z.of_nat (length (map (@snd Z A) pre))) at 1 by now rewrite map_length.
    rewrite vec_get_app_mid. cbn [bind].
    replace (Z.of_nat (length pre)) with (Z.of_nat (length (map (@fst Z A) pre))) at 1 by now rewrite map_length.
    rewrite vec_get_app_mid. cbn [bind].
    cbn [filter snd].
    assert (E : forall nv ns, purge_loop p
       {| c_next_sn := nx; c_vec := map snd pre ++ e :: map snd post; c_serial_ns := map fst pre ++ sn :: map fst post |}
       (length post) (Z.of_nat (length pre) + 1) nv ns =
       Ok (nv ++ map snd (filter (fun x => negb (p (snd x))) post), ns ++ map fst (filter (fun x => negb (p (snd x))) post))).
    { intros nv' ns'. specialize (IH (pre ++ [(sn, e)]) nv' ns').
      rewrite <- app_assoc in IH. cbn [app] in IH. rewrite !map_app in IH. cbn [map fst snd] in IH.
      rewrite app_length in IH. cbn [length] in IH.
      replace (Z.of_nat (length pre + 1)) with (Z.of_nat (length pre) + 1) in IH by lia. exact IH. }
    destruct (p e); cbn [negb].
    + apply E.
    + rewrite E. cbn [map fst snd]. now rewrite <- !app_assoc.
Qed.

Lemma filter_map_sorted {A} (q : Z * A -> bool) (l : list (Z * A)) :
  StronglySorted Z.lt (map fst l) -> StronglySorted Z.lt (map fst (filter q l)).
Proof.
  induction l as [|x l IH]; intros H; cbn [filter map]; [constructor|].
  inversion_clear H. destruct (q x); cbn [map]; [|auto].
  constructor; [auto|]. rewrite Forall_forall in *. intros y Hy. apply H1.
  apply in_map_iff in Hy as (z & <- & Hz). apply in_map. now apply filter_In in Hz.
Qed.

Lemma rep_purge {A} (c : container A) l p c' k :
  rep c l -> purge c p = Ok (c', k) ->
  rep c' (filter (fun x => negb (p (snd x))) l) /\ c_next_sn c' = c_next_sn c /\
  k = Z.of_nat (length (filter (fun x => p (snd x)) l)).
Proof.
  intros (Hv & Hs & Hst & Hf) H. destruct c as [nx v s]. cbn [c_vec c_serial_ns c_next_sn] in *. subst v s.
  unfold purge in H. cbn [c_vec c_next_sn] in H. rewrite map_length in H.
  pose proof (purge_loop_ok p l [] nx [] []) as E. cbn [app length] in E. change (Z.of_nat 0) with 0 in E.
  rewrite E in H. cbn [bind] in H. inversion H; subst; clear H.
  split; [|split; [reflexivity|]].
  - unfold rep. cbn [c_vec c_serial_ns c_next_sn]. repeat split.
    + now apply filter_map_sorted.
    + rewrite Forall_forall in *. intros y Hy. apply Hf. apply in_map_iff in Hy as (z & <- & Hz).
      apply in_map. now apply filter_In in Hz.
  - rewrite map_length.
    assert (F : (length (filter (fun x => p (snd x)) l) + length (filter (fun x => negb (p (snd x))) l) = length l)%nat).
    { clear. induction l as [|x l IH]; [reflexivity|]. cbn [filter]. destruct (p (snd x)); cbn [negb length]; lia. }
    lia.
Qed.

Definition expected_out {A} (op : container_op A) (l : list (Z * A)) (out : Z) : Prop :=
  match op with
  | Emplace _ => True
  | Purge p => out = Z.of_nat (length (filter (fun x => p (snd x)) l))
  end.

Lemma run_rep {A} (ops : list (container_op A)) (c c' : container A) l outs :
  0 <= c_next_sn c -> rep c l -> container_run c ops = Ok (c', outs) ->
  rep c' (live_from l ops outs) /\
  StronglySorted Z.lt (issued ops outs) /\ Forall (fun sn => c_next_sn c <= sn) (issued ops outs).
Proof.
  revert c l outs.
  induction ops as [|op ops IH]; intros c l outs Hn Hr H; cbn [container_run] in H.
  - inversion H; subst. split; [exact Hr|]. split; constructor.
  - destruct (container_step c op) as [[c1 out]| | |] eqn:Hs; try discriminate. cbn [bind] in H.
    destruct (container_run c1 ops) as [[c2 outs']| | |] eqn:Hrun; try discriminate. cbn [bind] in H.
    inversion H; subst; clear H. cbn [live_from issued].
    destruct op as [e|p]; cbn [container_step] in Hs.
    + destruct (rep_emplace _ _ _ _ _ Hn Hr Hs) as (Hr1 & -> & Hn1).
      destruct (IH c1 _ _ ltac:(lia) Hr1 Hrun) as (Hl & Hss & Hff).
      split; [exact Hl|]. split.
      * constructor; [exact Hss|]. eapply Forall_impl; [|exact Hff]. cbn. lia.
      * constructor; [lia|]. eapply Forall_impl; [|exact Hff]. cbn. lia.
    + destruct (rep_purge _ _ _ _ _ Hr Hs) as (Hr1 & Hn1 & _).
      destruct (IH c1 _ _ ltac:(lia) Hr1 Hrun) as (Hl & Hss & Hff).
      split; [exact Hl|]. split; [exact Hss|]. eapply Forall_impl; [|exact Hff]. cbn. lia.
Qed.

Lemma sorted_nodup (l : list Z) : StronglySorted Z.lt l -> NoDup l.
Proof.
  induction 1 as [|a l Hs IH Hf]; constructor; [|assumption].
  intros Hin. rewrite Forall_forall in Hf. specialize (Hf _ Hin). lia.
Qed.

(** bisection *)
Definition splits (below : Z -> bool) (v : list Z) (k : Z) : Prop :=
  forall i : nat, forall x, nth_error v i = Some x -> below x = (Z.of_nat i <? k).

Lemma partition_point_ok (below : Z -> bool) (v : list Z) (k : Z) (n : nat) (first len : Z) :
  splits below v k -> 0 <= first -> 0 <= len -> first + len <= Z.of_nat (length v) ->
  first <= k <= first + len -> len < Z.of_nat n ->
  partition_point below v n first len = Ok k.
Proof.
  intros Hsp. revert first len.
  induction n as [|n IH]; intros first len H0 Hl Hlen Hk Hn; [lia|].
  cbn [partition_point]. destruct (Z.ltb_spec 0 len) as [Hpos|Hz]; [|f_equal; lia].
  set (half := len / 2).
  assert (Hh : 0 <= half < len).
  { unfold half. split; [apply Z.div_pos; lia|apply Z.div_lt; lia]. }
  replace (first + half) with (Z.of_nat (Z.to_nat (first + half))) at 1 by lia.
  rewrite vec_get_nat.
  destruct (nth_error v (Z.to_nat (first + half))) as [x|] eqn:Hx.
  2:{ apply nth_error_None in Hx. lia. }
  cbn [of_option_ub bind]. rewrite (Hsp _ _ Hx).
  rewrite Z2Nat.id by lia.
  destruct (Z.ltb_spec (first + half) k) as [Hb|Hb].
  - apply IH; lia.
  - apply IH; lia.
Qed.

Lemma splits_sorted_lt (v : list Z) (sn : Z) :
  StronglySorted Z.lt v ->
  splits (fun x => x <? sn) v (Z.of_nat (length (filter (fun x => x <? sn) v))).
Proof.
  intros Hs. induction Hs as [|a v Hs IH Hf]; intros i x Hx.
  - destruct i; discriminate.
  - cbn [filter]. destruct (Z.ltb_spec a sn) as [Ha|Ha].
    + destruct i as [|i]; cbn [nth_error] in Hx.
      * inversion Hx; subst. cbn [length]. destruct (Z.ltb_spec x sn); [|lia]. symmetry. apply Z.ltb_lt. lia.
      * rewrite (IH _ _ Hx). cbn [length]. apply eq_true_iff_eq. rewrite !Z.ltb_lt. lia.
    + assert (E : filter (fun x => x <? sn) v = []).
      { clear -Hf Ha. induction v as [|b v IHv]; [reflexivity|]. cbn [filter].
        apply Forall_cons_iff in Hf as [Hb Hf]. destruct (Z.ltb_spec b sn); [lia|]. now apply IHv. }
      rewrite E. cbn [length]. transitivity false.
      * apply Z.ltb_ge. destruct i as [|i]; cbn [nth_error] in Hx; [inversion Hx; lia|].
        apply nth_error_In in Hx. rewrite Forall_forall in Hf. specialize (Hf _ Hx). lia.
      * symmetry. apply Z.ltb_ge. lia.
Qed.

Lemma splits_sorted_le (v : list Z) (sn : Z) :
  StronglySorted Z.lt v ->
  splits (fun x => x <=? sn) v (Z.of_nat (length (filter (fun x => x <=? sn) v))).
Proof.
  intros Hs i x Hx. pose proof (splits_sorted_lt v (sn + 1) Hs i x Hx) as E. cbn in E.
  assert (Q : forall y, (y <=? sn) = (y <? sn + 1)) by (intros; apply eq_true_iff_eq; rewrite Z.leb_le, Z.ltb_lt; lia).
  rewrite Q, E. rewrite (filter_ext _ _ Q). reflexivity.
Qed.

Lemma filter_le_length {A} (q : A -> bool) l : (length (filter q l) <= length l)%nat.
Proof. induction l as [|x l IH]; cbn; [lia|]. destruct (q x); cbn; lia. Qed.

Lemma at_ok {A} (level : A -> Z) (c : container A) l ref_level sn :
  rep c l ->
  at_ level c ref_level sn =
  match element_numbered sn l with
  | Some e => if level e =? ref_level then Ok e else Throw
  | None => Throw
  end.
Proof.
  intros (Hv & Hs & Hst & _). unfold at_. rewrite Hv, Hs.
  set (k1 := Z.of_nat (length (filter (fun x => x <? sn) (map fst l)))).
  set (k2 := Z.of_nat (length (filter (fun x => x <=? sn) (map fst l)))).
  pose proof (filter_le_length (fun x => x <? sn) (map fst l)) as L1.
  pose proof (filter_le_length (fun x => x <=? sn) (map fst l)) as L2.
  rewrite (partition_point_ok _ _ k1); [|now apply splits_sorted_lt|lia..].
  rewrite (partition_point_ok _ _ k2); [|now apply splits_sorted_le|lia..].
  cbn [bind]. unfold k1, k2. clear k1 k2 L1 L2 Hv Hs.
  assert (None_case : element_numbered sn l = None ->
     length (filter (fun x => x <? sn) (map fst l)) = length (filter (fun x => x <=? sn) (map fst l))).
  { intros E. f_equal. apply filter_ext_in. intros y Hy. apply eq_true_iff_eq. rewrite Z.ltb_lt, Z.leb_le.
    assert (y <> sn); [|lia]. intros ->. clear Hst.
    induction l as [|[sn' e] l IH]; [contradiction|]. cbn [element_numbered] in E.
    destruct (Z.eqb_spec sn' sn) as [Heq|Hneq]; [discriminate|]. destruct Hy as [Hy|Hy]; [now apply Hneq|auto]. }
  assert (Some_case : forall e, element_numbered sn l = Some e ->
     length (filter (fun x => x <=? sn) (map fst l)) = S (length (filter (fun x => x <? sn) (map fst l))) /\
     nth_error (map snd l) (length (filter (fun x => x <? sn) (map fst l))) = Some e).
  { clear None_case. intros e E. induction l as [|[sn' e'] l IH]; [discriminate|].
    cbn [map fst snd] in *. inversion_clear Hst as [|? ? Hs Hf]. cbn [element_numbered] in E. cbn [filter].
    destruct (Z.eqb_spec sn' sn) as [->|Hne].
    - inversion E; subst. rewrite Z.leb_refl, Z.ltb_irrefl.
      assert (E1 : forall q, (forall x, sn < x -> q x = false) -> filter q (map fst l) = []).
      { intros q Hq. clear -Hf Hq. induction (map fst l) as [|b v IHv]; [reflexivity|].
        apply Forall_cons_iff in Hf as [Hb Hf]. cbn [filter]. rewrite (Hq b Hb). auto. }
      rewrite !E1; [auto| |]; intros x Hx; [apply Z.ltb_ge|apply Z.leb_gt]; lia.
    - destruct (IH Hs E) as [I1 I2].
      assert (Hlt : sn' < sn).
      { assert (In sn (map fst l)).
        { clear -E. induction l as [|[a b] l IHl]; [discriminate|]. cbn [element_numbered] in E. cbn [map fst].
          destruct (Z.eqb_spec a sn); [now left|right; auto]. }
        rewrite Forall_forall in Hf. auto. }
      destruct (Z.ltb_spec sn' sn); [|lia]. destruct (Z.leb_spec sn' sn); [|lia].
      cbn [length nth_error]. split; [lia|exact I2]. }
  destruct (element_numbered sn l) as [e|].
  - destruct (Some_case e eq_refl) as [S1 S2]. rewrite S1.
    destruct (Z.eqb_spec (Z.of_nat (S (length (filter (fun x => x <? sn) (map fst l)))) -
      Z.of_nat (length (filter (fun x => x <? sn) (map fst l)))) 1); [|lia].
    rewrite vec_get_nat, S2. reflexivity.
  - rewrite (None_case eq_refl), Z.sub_diag. reflexivity.
Qed.

Lemma handles_loop_ok {A} (level : A -> Z) (post pre : list (Z * A)) nx hs :
  handles_loop level {| c_next_sn := nx; c_vec := map snd (pre ++ post); c_serial_ns := map fst (pre ++ post) |}
    (length post) (Z.of_nat (length pre)) hs =
  Ok (hs ++ map (fun x => (level (snd x), fst x)) post).
Proof.
  revert pre hs. induction post as [|[sn e] post IH]; intros pre hs; cbn [length handles_loop].
  - cbn [map]. now rewrite app_nil_r.
  - cbn [c_vec c_serial_ns]. rewrite !map_app. cbn [map fst snd].
    replace (Z.of_nat (length pre)) with (Z.of_nat (length (map (@snd Z A) pre))) at 1 by now rewrite map_length.
    rewrite vec_get_app_mid. cbn [bind].
    replace (Z.of_nat (length pre)) with (Z.of_nat (length (map (@fst Z A) pre))) at 1 by now rewrite map_length.
    rewrite vec_get_app_mid. cbn [bind].
    specialize (IH (pre ++ [(sn, e)]) (hs ++ [(level e, sn)])).
    rewrite <- app_assoc in IH. cbn [app] in IH. rewrite !map_app in IH. cbn [map fst snd] in IH.
    rewrite app_length in IH. cbn [length] in IH.
    replace (Z.of_nat (length pre + 1)) with (Z.of_nat (length pre) + 1) in IH by lia.
    rewrite IH. now rewrite <- app_assoc.
Qed.

Lemma handles_ok {A} (level : A -> Z) (c : container A) l :
  rep c l -> elem_handles level c = Ok (map (fun x => (level (snd x), fst x)) l).
Proof.
  intros (Hv & Hs & _). destruct c as [nx v s]. cbn [c_vec c_serial_ns] in *. subst.
  unfold elem_handles. cbn [c_vec]. rewrite map_length.
  pose proof (handles_loop_ok level l [] nx []) as E. cbn [app length] in E. exact E.
Qed.

Lemma container_history {A} (level : A -> Z) (ops : list (container_op A)) c outs :
  container_run (container_init A) ops = Ok (c, outs) ->
  NoDup (issued ops outs) /\
  c_vec c = map snd (live ops outs) /\
  elem_handles level c = Ok (map (fun x => (level (snd x), fst x)) (live ops outs)) /\
  forall ref_level sn, at_ level c ref_level sn =
    match element_numbered sn (live ops outs) with
    | Some e => if level e =? ref_level then Ok e else Throw
    | None => Throw
    end.
Proof.
  intros H. assert (H0 : 0 <= c_next_sn (container_init A)) by (cbn; lia).
  destruct (run_rep ops _ _ [] _ H0 (rep_init A) H) as (Hr & Hs & _).
  fold (live ops outs) in Hr.
  split; [now apply sorted_nodup|]. split; [apply Hr|]. split; [now apply handles_ok|].
  intros. now apply at_ok.
Qed.

Lemma run_length {A} (ops : list (container_op A)) c0 c outs :
  container_run c0 ops = Ok (c, outs) -> length outs = length ops.
Proof.
  revert c0 c outs. induction ops as [|op ops IH]; intros c0 c outs H; cbn [container_run] in H.
  - inversion H. reflexivity.
  - destruct (container_step c0 op) as [[c1 o]| | |]; try discriminate. cbn [bind] in H.
    destruct (container_run c1 ops) as [[c2 os]| | |] eqn:E; try discriminate. cbn [bind] in H.
    inversion H; subst. cbn [length]. f_equal. eauto.
Qed.

Lemma container_no_ub {A} (ops : list (container_op A)) c l :
  0 <= c_next_sn c -> c_next_sn c + Z.of_nat (length ops) <= int_max -> rep c l ->
  exists c' outs, container_run c ops = Ok (c', outs).
Proof.
  revert c l. induction ops as [|op ops IH]; intros c l Hn Hb Hr; cbn [container_run].
  - eauto.
  - cbn [length] in Hb.
    assert (exists c1 o l1, container_step c op = Ok (c1, o) /\ rep c1 l1 /\ c_next_sn c <= c_next_sn c1 <= c_next_sn c + 1)
      as (c1 & o & l1 & Hs & Hr1 & Hn1).
    { destruct op as [e|p]; cbn [container_step].
      - destruct (emplace c e) as [[c1 o]| | |] eqn:E.
        + destruct (rep_emplace _ _ _ _ _ Hn Hr E) as (R & _ & Q). exists c1, o, (l ++ [(o, e)]).
          repeat split; try apply R; lia.
        + unfold emplace in E. destruct (c_next_sn c <? int_max); discriminate.
        + unfold emplace in E. destruct (Z.ltb_spec (c_next_sn c) int_max); [discriminate|lia].
        + unfold emplace in E. destruct (c_next_sn c <? int_max); discriminate.
      - destruct (purge c p) as [[c1 o]| | |] eqn:E.
        1: { destruct (rep_purge _ _ _ _ _ Hr E) as (R & Q & _).
             exists c1, o, (filter (fun x => negb (p (snd x))) l). repeat split; try apply R; lia. }
        all: exfalso; destruct Hr as (Hv & Hsn & _); destruct c as [nx v s]; cbn [c_vec c_serial_ns] in *; subst;
          unfold purge in E; cbn [c_vec] in E; rewrite map_length in E;
          pose proof (purge_loop_ok p l [] nx [] []) as E'; cbn [app length] in E'; change (Z.of_nat 0) with 0 in E';
          rewrite E' in E; discriminate. }
    rewrite Hs. cbn [bind].
    destruct (IH c1 l1 ltac:(lia) ltac:(lia) Hr1) as (c2 & outs & E). rewrite E. cbn [bind]. eauto.
Qed.

Lemma container_total {A} (ops : list (container_op A)) :
  Z.of_nat (length ops) <= int_max ->
  exists c outs, container_run (container_init A) ops = Ok (c, outs).
Proof.
  intros H. apply (container_no_ub ops (container_init A) []); cbn [c_next_sn container_init]; [lia|lia|apply rep_init].
Qed.

(** what each purge call reports *)
Lemma purge_report {A} (ops1 ops2 : list (container_op A)) (p : A -> bool) c outs1 k outs2 :
  container_run (container_init A) (ops1 ++ Purge p :: ops2) = Ok (c, outs1 ++ k :: outs2) ->
  length outs1 = length ops1 ->
  k = Z.of_nat (length (filter (fun x => p (snd x)) (live ops1 outs1))).
Proof.
  assert (G : forall ops1 outs1 c0 l, 0 <= c_next_sn c0 -> rep c0 l ->
    container_run c0 (ops1 ++ Purge p :: ops2) = Ok (c, outs1 ++ k :: outs2) -> length outs1 = length ops1 ->
    k = Z.of_nat (length (filter (fun x => p (snd x)) (live_from l ops1 outs1)))).
  { clear ops1 outs1. intros ops1. induction ops1 as [|op ops1 IH]; intros outs1 c0 l Hn Hr H Hl;
    destruct outs1 as [|o outs1]; try discriminate; cbn [app container_run] in H.
    - destruct (container_step c0 (Purge p)) as [[c1 o]| | |] eqn:Es; try discriminate. cbn [bind] in H.
      destruct (container_run c1 ops2) as [[c2 os]| | |]; try discriminate. cbn [bind] in H. inversion H; subst.
      cbn [live_from]. now apply (rep_purge _ _ _ _ _ Hr Es).
    - destruct (container_step c0 op) as [[c1 o1]| | |] eqn:Es; try discriminate. cbn [bind] in H.
      destruct (container_run c1 (ops1 ++ Purge p :: ops2)) as [[c2 os]| | |] eqn:Er; try discriminate. cbn [bind] in H.
      inversion H; subst. cbn [length] in Hl. destruct op as [e|q]; cbn [container_step] in Es; cbn [live_from].
      + destruct (rep_emplace _ _ _ _ _ Hn Hr Es) as (R & _ & Q). apply (IH _ c1); [lia|exact R|exact Er|lia].
      + destruct (rep_purge _ _ _ _ _ Hr Es) as (R & Q & _). apply (IH _ c1); [lia|exact R|exact Er|lia]. }
  intros H Hl. eapply G; [| apply rep_init | exact H | exact Hl]. cbn. lia.
Qed.

(** ** sequences *)
Lemma vector_view_shows {A B} (convert : A -> B) v : shows (vector_view convert v) (map convert v).
Proof.
  split; cbn [vector_view seq_size seq_get]; [now rewrite map_length|].
  intros i x H. rewrite vec_get_nat. rewrite nth_error_map in H.
  destruct (nth_error v i); [|discriminate]. cbn in *. congruence.
Qed.

Lemma sequence_view_shows {A B} (convert : A -> B) s l : shows s l -> shows (sequence_view convert s) (map convert l).
Proof.
  intros [Hs Hg]. split; cbn [sequence_view seq_size seq_get]; [now rewrite map_length|].
  intros i x H. rewrite nth_error_map in H. destruct (nth_error l i) eqn:E; [|discriminate]. cbn in H.
  rewrite (Hg _ _ E). cbn. congruence.
Qed.

Lemma concatenation_shows {A} (s0 s1 : sequence A) l0 l1 :
  shows s0 l0 -> shows s1 l1 -> shows (concatenation s0 s1) (l0 ++ l1).
Proof.
  intros [Hs0 Hg0] [Hs1 Hg1]. split; cbn [concatenation seq_size seq_get].
  - rewrite app_length, Hs0, Hs1. lia.
  - intros i x H. rewrite Hs0. destruct (Z.ltb_spec (Z.of_nat i - Z.of_nat (length l0)) 0) as [L|L].
    + apply Hg0. rewrite nth_error_app1 in H by lia. exact H.
    + rewrite nth_error_app2 in H by lia.
      replace (Z.of_nat i - Z.of_nat (length l0)) with (Z.of_nat (i - length l0)) by lia. now apply Hg1.
Qed.

Lemma Forall2_len {A B} (R : A -> B -> Prop) l l' : Forall2 R l l' -> length l = length l'.
Proof. induction 1; cbn; congruence. Qed.

Lemma index_shows {A} (s : sequence A) l inds sel :
  shows s l -> Forall2 (fun i x => 0 <= i /\ nth_error l (Z.to_nat i) = Some x) inds sel ->
  shows (index_seq s inds) sel.
Proof.
  intros [Hs Hg] HF. split; cbn [index_seq seq_size seq_get].
  - now rewrite (Forall2_len _ _ _ HF).
  - intros i x H. rewrite vec_get_nat. clear Hs.
    revert i H. induction HF as [|j y inds sel [Hj Hy] HF IH]; intros i H; destruct i as [|i]; try discriminate.
    + cbn in *. inversion H; subst. replace j with (Z.of_nat (Z.to_nat j)) by lia. now apply Hg.
    + cbn [nth_error] in *. now apply IH.
Qed.

Definition uniform {A} (n : Z) (r : list (list A)) : Prop := Forall (fun rc => Z.of_nat (length rc) = n) r.

Lemma concat_uniform_length {A} (n : Z) (r : list (list A)) :
  uniform n r -> Z.of_nat (length (concat r)) = n * Z.of_nat (length r).
Proof.
  induction 1 as [|rc r Hrc Hr IH]; cbn [concat length]; [lia|]. rewrite app_length. lia.
Qed.

Lemma nth_concat_uniform {A} (n : Z) (r : list (list A)) (i : nat) x :
  0 < n -> uniform n r -> nth_error (concat r) i = Some x ->
  exists rc, nth_error r (Z.to_nat (Z.of_nat i / n)) = Some rc /\ nth_error rc (Z.to_nat (Z.of_nat i mod n)) = Some x.
Proof.
  intros Hn Hu. revert i. induction Hu as [|rc r Hrc Hr IH]; intros i H; cbn [concat] in H.
  - destruct i; discriminate.
  - destruct (Nat.lt_ge_cases i (length rc)) as [L|L].
    + rewrite nth_error_app1 in H by lia. rewrite Z.div_small, Z.mod_small by lia. exists rc.
      split; [reflexivity|]. now rewrite Nat2Z.id.
    + rewrite nth_error_app2 in H by lia. destruct (IH _ H) as (rc' & E1 & E2). exists rc'.
      replace (Z.of_nat i) with (Z.of_nat (i - length rc) + 1 * n) by lia.
      rewrite Z.div_add, Z.mod_add by lia. split; [|exact E2].
      replace (Z.to_nat (Z.of_nat (i - length rc) / n + 1)) with (S (Z.to_nat (Z.of_nat (i - length rc) / n))).
      * exact E1.
      * assert (0 <= Z.of_nat (i - length rc) / n) by (apply Z.div_pos; lia). lia.
Qed.

Lemma get_ref_ok {A} (nf : list Z) (refs : list (list (list A))) (i : nat) x :
  Forall2 (fun n r => 0 < n /\ uniform n r) nf refs ->
  nth_error (concat (concat refs)) i = Some x ->
  connection_view_get_ref nf refs (Z.of_nat i) = Ok x.
Proof.
  intros HF. revert i. induction HF as [|n r nf refs [Hn Hu] HF IH]; intros i H; cbn [concat] in H.
  - destruct i; discriminate.
  - rewrite concat_app in H. cbn [connection_view_get_ref]. rewrite <- (concat_uniform_length n r Hu).
    destruct (Z.ltb_spec (Z.of_nat i) (Z.of_nat (length (concat r)))) as [L|L].
    + rewrite nth_error_app1 in H by lia.
      destruct (nth_concat_uniform n r i x Hn Hu H) as (rc & E1 & E2).
      assert (0 <= Z.of_nat i / n) by (apply Z.div_pos; lia).
      rewrite Z.quot_div_nonneg, Z.rem_mod_nonneg by lia.
      replace (Z.of_nat i / n) with (Z.of_nat (Z.to_nat (Z.of_nat i / n))) by lia.
      rewrite vec_get_nat, E1. cbn [of_option_ub bind].
      assert (0 <= Z.of_nat i mod n < n) by (apply Z.mod_pos_bound; lia).
      replace (Z.of_nat i mod n) with (Z.of_nat (Z.to_nat (Z.of_nat i mod n))) by lia.
      now rewrite vec_get_nat, E2.
    + rewrite nth_error_app2 in H by lia.
      replace (Z.of_nat i - Z.of_nat (length (concat r))) with (Z.of_nat (i - length (concat r))) by lia. auto.
Qed.

Lemma size_ref_ok {A} (nf : list Z) (refs : list (list (list A))) sz :
  Forall2 (fun n r => 0 < n /\ uniform n r) nf refs ->
  connection_view_size_ref nf refs sz = sz + Z.of_nat (length (concat (concat refs))).
Proof.
  intros HF. revert sz. induction HF as [|n r nf refs [Hn Hu] HF IH]; intros sz; cbn [connection_view_size_ref concat].
  - cbn. lia.
  - rewrite IH, concat_app, app_length, <- (concat_uniform_length n r Hu). lia.
Qed.

Lemma get_ref_out {A} (nf : list Z) (refs : list (list (list A))) i :
  Forall2 (fun n r => 0 < n /\ uniform n r) nf refs ->
  Z.of_nat (length (concat (concat refs))) <= i ->
  connection_view_get_ref nf refs i = Throw.
Proof.
  intros HF. revert i. induction HF as [|n r nf refs [Hn Hu] HF IH]; intros i H; cbn [connection_view_get_ref]; [reflexivity|].
  cbn [concat] in H. rewrite concat_app, app_length in H. rewrite <- (concat_uniform_length n r Hu).
  destruct (Z.ltb_spec i (Z.of_nat (length (concat r)))); [lia|]. apply IH. lia.
Qed.

Lemma connection_view_shows {A} (cons : list A) r1 r2 r4 :
  uniform 1 r1 -> uniform 2 r2 -> uniform 4 r4 ->
  shows (connection_view cons [r1; r2; r4]) (cons ++ concat r1 ++ concat r2 ++ concat r4) /\
  (forall i, seq_size (connection_view cons [r1; r2; r4]) <= i ->
             seq_get (connection_view cons [r1; r2; r4]) i = Throw).
Proof.
  intros H1 H2 H4.
  assert (HF : Forall2 (fun n r => 0 < n /\ uniform n r) n_fine [r1; r2; r4]).
  { unfold n_fine. repeat (constructor; [split; [lia|assumption]|]). constructor. }
  assert (E : concat (concat [r1; r2; r4]) = concat r1 ++ concat r2 ++ concat r4).
  { cbn [concat]. now rewrite !concat_app, app_nil_r. }
  split; [split|].
  - cbn [connection_view seq_size]. rewrite size_ref_ok by exact HF. rewrite E, !app_length. lia.
  - intros i x H. cbn [connection_view seq_get].
    destruct (Z.ltb_spec (Z.of_nat i - Z.of_nat (length cons)) 0) as [L|L].
    + rewrite nth_error_app1 in H by lia. now rewrite vec_get_nat, H.
    + rewrite nth_error_app2 in H by lia.
      replace (Z.of_nat i - Z.of_nat (length cons)) with (Z.of_nat (i - length cons)) by lia.
      apply get_ref_ok; [exact HF|]. now rewrite E.
  - intros i Hi. cbn [connection_view seq_get seq_size] in *. rewrite size_ref_ok in Hi by exact HF.
    destruct (Z.ltb_spec (i - Z.of_nat (length cons)) 0); [lia|]. apply get_ref_out; [exact HF|rewrite E in *; lia].
Qed.
