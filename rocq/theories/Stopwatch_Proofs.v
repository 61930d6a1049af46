From Coq Require Import ZArith QArith List Lia Qfield Bool.
From Verif Require Import Outcome Stopwatch_Model Stopwatch_Spec.
Import ListNotations.

Lemma sw_run_snoc s h op : sw_run s (h ++ [op]) = match sw_call (sw_run s h) op with Ok s' => s' | _ => sw_run s h end.
Proof. revert s. induction h as [|o h IH]; intros s; cbn [app sw_run]; [reflexivity|apply IH]. Qed.

Lemma sw_history h :
  let s := sw_run sw_new h in let past := rev h in
  sw_r s = is_running past /\ sw_n s = Z.of_nat (length (completed past)) /\
  (sw_t s == total (completed past) # 1000000000)%Q /\ (sw_r s = true -> sw_started s = opened past).
Proof.
  cbv zeta. induction h as [|op h IH] using rev_ind; [cbn; repeat split; discriminate|].
  rewrite sw_run_snoc, rev_app_distr. cbn [rev app]. set (s := sw_run sw_new h) in *. set (past := rev h) in *. clearbody s past.
  destruct IH as (R & N & T & O). destruct op as [now|now|]; cbn [sw_call is_running completed opened].
  - unfold sw_start. destruct (sw_r s) eqn:E; rewrite <- R; cbn [sw_r sw_n sw_t sw_started]; auto.
  - unfold sw_pause. destruct (sw_r s) eqn:E; rewrite <- R; cbn [sw_r sw_n sw_t sw_started].
    + split; [reflexivity|]. split; [cbn [length]; lia|]. split; [|discriminate].
      rewrite T, (O eq_refl). cbn [total fold_right fst snd].
      change (fold_right (fun ab acc => (snd ab - fst ab + acc)%Z) 0%Z (completed past)) with (total (completed past)).
      unfold Qeq, Qplus. cbn [Qnum Qden]. rewrite Pos2Z.inj_mul. ring.
    + repeat split; auto. congruence.
  - cbn. repeat split; auto.
Qed.

Lemma sw_reject h op :
  match op with
  | Start _ => sw_call (sw_run sw_new h) op = Throw <-> is_running (rev h) = true
  | Pause _ => sw_call (sw_run sw_new h) op = Throw <-> is_running (rev h) = false
  | Reset => sw_call (sw_run sw_new h) op <> Throw
  end.
Proof.
  destruct (sw_history h) as (R & _). rewrite <- R. destruct op; cbn [sw_call]; unfold sw_start, sw_pause;
    destruct (sw_r (sw_run sw_new h)); (split; congruence) || discriminate.
Qed.

Lemma sw_addition h1 h2 :
  let s1 := sw_run sw_new h1 in let s2 := sw_run sw_new h2 in
  if is_running (rev h1) || is_running (rev h2) then sw_add s1 s2 = Throw /\ sw_add_assign s1 s2 = Throw
  else exists s s', sw_add s1 s2 = Ok s /\ sw_add_assign s1 s2 = Ok s' /\ sw_r s = false /\ sw_r s' = false /\
       sw_n s = Z.of_nat (length (completed (rev h1) ++ completed (rev h2))) /\ sw_n s' = sw_n s /\
       (sw_t s == total (completed (rev h1) ++ completed (rev h2)) # 1000000000)%Q /\ (sw_t s' == sw_t s)%Q.
Proof.
  cbv zeta. destruct (sw_history h1) as (R1 & N1 & T1 & _). destruct (sw_history h2) as (R2 & N2 & T2 & _).
  rewrite <- R1, <- R2. unfold sw_add, sw_add_assign. destruct (sw_r (sw_run sw_new h1)), (sw_r (sw_run sw_new h2)); cbn [negb andb orb]; auto.
  do 2 eexists. split; [reflexivity|]. split; [reflexivity|]. cbn [sw_r sw_n sw_t]. repeat split.
  - rewrite N1, N2, app_length. lia.
  - rewrite T1, T2. assert (E : forall l1 l2, total (l1 ++ l2) = (total l1 + total l2)%Z).
    { unfold total. induction l1 as [|a l1 IH]; intros l2; cbn [app fold_right]; [reflexivity|]. rewrite IH. lia. }
    rewrite E. unfold Qeq, Qplus. cbn [Qnum Qden]. rewrite Pos2Z.inj_mul. ring.
Qed.
