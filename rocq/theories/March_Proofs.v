(** Proofs about the time-marching loops. *)
From Coq Require Import ZArith Reals List Lia Lra Bool.
From Verif Require Import Outcome RSum March_Model March_Spec.
Import ListNotations.

Lemma fuel_S : exists f, Z.to_nat (fix_limit + 1) = S f /\ Z.of_nat f = fix_limit /\ (1 <= f)%nat.
Proof.
  assert (P : (0 < fix_limit)%Z) by reflexivity. generalize dependent fix_limit. intros z P. exists (Z.to_nat z). lia.
Qed.

Section Fix.
  Context {F : Type} (k : kernels F) (s : F).
  Let at_ (n : nat) : F := times n (smooth k) s.

  Definition fix_inv (i : nat) (n_iters : Z) : Prop :=
    (1 <= i)%nat /\ (forall m, settles k s m -> (i <= 2 * m)%nat) /\
    ((n_iters = int_max /\ is_admissible k (at_ (i - 1)) = false) \/
     exists n, (1 <= n)%nat /\ (n < i <= 2 * n)%nat /\ n_iters = (2 * Z.of_nat n)%Z /\ is_admissible k (at_ (n - 1)) = false /\ forall j, (n <= j < i)%nat -> is_admissible k (at_ j) = true).
  Definition fix_answer (r : outcome (Z * F)) : Prop :=
    (exists n, settles k s n /\ (forall m, settles k s m -> (n <= m)%nat) /\ (2 * Z.of_nat n <= fix_limit)%Z /\ r = Ok ((2 * Z.of_nat n)%Z, at_ (2 * n))) \/
    (r = Throw /\ forall n, settles k s n -> (fix_limit < 2 * Z.of_nat n)%Z).

  Lemma fix_inv_strict i n_iters : fix_inv i n_iters -> (Z.of_nat i < n_iters)%Z -> forall m, settles k s m -> (i < 2 * m)%nat.
  Proof.
    intros (I & L & C) B m M. pose proof (L m M) as LM. destruct (Nat.eq_dec i (2 * m)) as [E|]; [|lia]. exfalso.
    destruct M as (M1 & M2 & M3). destruct C as [[_ A]|(n & N1 & N2 & N3 & N4 & N5)].
    - unfold at_ in A. rewrite M3 in A by lia. discriminate.
    - unfold at_ in N4. rewrite M3 in N4 by lia. discriminate.
  Qed.

  Lemma fix_loop_spec fuel : forall i n_iters, (Z.of_nat i + Z.of_nat fuel = fix_limit + 1)%Z -> (1 <= fuel)%nat -> fix_inv i n_iters -> fix_answer (fix_loop k fuel (Z.of_nat i) n_iters (at_ i)).
  Proof.
    induction fuel as [|fuel IH]; intros i N FU F1 Inv; [lia|]. cbn [fix_loop].
    destruct (Z.ltb_spec (Z.of_nat i) N) as [B|B].
    - pose proof (fix_inv_strict i N Inv B) as ST. destruct Inv as (I & L & C).
      destruct (Z.ltb_spec (Z.of_nat i) fix_limit) as [B2|B2]; cbn [negb].
      + replace (Z.of_nat i + 1)%Z with (Z.of_nat (S i)) by lia. change (smooth k (at_ i)) with (at_ (S i)).
        destruct (is_admissible k (at_ i)) eqn:A.
        * destruct (Z.eqb_spec (Z.of_nat i) 0) as [Z0|_]; [lia|]. cbv zeta. apply IH; [lia|lia|]. split; [lia|]. split; [intros m M; specialize (ST m M); lia|]. right.
          destruct C as [[E A']|(n & N1 & N2 & N3 & N4 & N5)].
          -- exists i. repeat split; try lia; [unfold fix_limit, int_max in *; lia|exact A'|]. intros j J. replace j with i by lia. exact A.
          -- exists n. repeat split; try lia; [exact N4|]. intros j J. destruct (Nat.eq_dec j i) as [->|]; [exact A|apply N5; lia].
        * cbv zeta. apply IH; [lia|lia|]. split; [lia|]. split; [intros m M; specialize (ST m M); lia|]. left. split; [reflexivity|].
          replace (S i - 1)%nat with i by lia. exact A.
      + right. split; [reflexivity|]. intros n Sn. specialize (ST n Sn). lia.
    - left. destruct Inv as (I & L & [[E A]|(n & N1 & N2 & N3 & N4 & N5)]); [unfold fix_limit, int_max in *; lia|]. assert (i = 2 * n)%nat as -> by lia.
      exists n. split; [|split; [|split]].
      + split; [exact N1|]. split; [exact N4|]. exact N5.
      + intros m M. specialize (L m M). lia.
      + lia.
      + f_equal. f_equal. lia.
  Qed.

  Lemma fix_answer_first : is_admissible k s = false -> fix_answer (fix_loop k (Z.to_nat (fix_limit + 1)) 0 int_max s).
  Proof.
    intros A. destruct fuel_S as (f & -> & FE & FP). cbn [fix_loop].
    replace (0 <? int_max)%Z with true by reflexivity. replace (0 <? fix_limit)%Z with true by reflexivity. cbn [negb]. rewrite A. cbv zeta.
    change (0 + 1)%Z with (Z.of_nat 1). change (smooth k s) with (at_ 1). apply fix_loop_spec; [lia|lia|].
    split; [lia|]. split; [intros m (M & _); lia|]. left. split; [reflexivity|exact A].
  Qed.

  Lemma fix_first_ok : is_admissible k s = true -> fix_loop k (Z.to_nat (fix_limit + 1)) 0 int_max s = Ok (1%Z, s).
  Proof.
    intros A. destruct fuel_S as (f & -> & FE & FP). cbn [fix_loop].
    replace (0 <? int_max)%Z with true by reflexivity. replace (0 <? fix_limit)%Z with true by reflexivity. cbn [negb]. rewrite A. reflexivity.
  Qed.
End Fix.

(** what [fix_admissibility] does, completely *)
Lemma fix_complete F (k : kernels F) on s :
  if (negb on || is_admissible k s)%bool then fix_admissibility k on s = Ok (0%Z, s)
  else (exists n, settles k s n /\ (forall m, settles k s m -> (n <= m)%nat) /\ (2 * Z.of_nat n <= fix_limit)%Z /\ fix_admissibility k on s = Ok ((2 * Z.of_nat n - 1)%Z, times (2 * n) (smooth k) s)) \/
       (fix_admissibility k on s = Throw /\ forall n, settles k s n -> (fix_limit < 2 * Z.of_nat n)%Z).
Proof.
  unfold fix_admissibility. destruct on; cbn [negb orb]; [|reflexivity]. destruct (is_admissible k s) eqn:A.
  - rewrite fix_first_ok by exact A. reflexivity.
  - destruct (fix_answer_first k s A) as [(n & S1 & S2 & S3 & E)|(E & N)]; [left|right]; rewrite E; cbn [bind fst snd].
    + exists n. auto.
    + auto.
Qed.

Lemma fix_repaired F (k : kernels F) on s n s' : fix_admissibility k on s = Ok (n, s') -> repaired k on s (negb (n =? 0)%Z) s'.
Proof.
  intros E. pose proof (fix_complete F k on s) as C. unfold repaired. destruct (negb on || is_admissible k s)%bool.
  - rewrite C in E. injection E as <- <-. auto.
  - destruct C as [(m & S1 & S2 & S3 & E')|(E' & _)]; rewrite E' in E; [|discriminate]. assert (n = 2 * Z.of_nat m - 1)%Z as -> by congruence. assert (s' = times (2 * m) (smooth k) s) as -> by congruence. destruct S1 as (M & S1). split.
    + assert (NZ : (2 * Z.of_nat m - 1 <> 0)%Z) by lia. apply Z.eqb_neq in NZ. now rewrite NZ.
    + exists m. split; [split; assumption|]. auto.
Qed.

Lemma fix_finishes F (k : kernels F) on s : (exists r, fix_admissibility k on s = Ok r) \/ fix_admissibility k on s = Throw.
Proof.
  pose proof (fix_complete F k on s) as C. destruct (negb on || is_admissible k s)%bool; [left; eauto|]. destruct C as [(m & _ & _ & _ & E')|(E' & _)]; [left|right]; eauto.
Qed.

(** ** The loops of [update] *)
Section Update.
  Context {F : Type} (k : kernels F) (p : parameters).

  (** the counters change by the same amounts in both copies *)
  Definition advanced (x x' : solver F) (t : R) (iters : Z) : Prop :=
    ns_flow_time x' = (ns_flow_time x + t)%R /\ st_flow_time x' = (st_flow_time x + t)%R /\
    ns_iteration x' = (ns_iteration x + iters)%Z /\ st_iteration x' = (st_iteration x + iters)%Z /\
    (in_sync x -> in_sync x').
  Lemma advanced_refl x : advanced x x 0 0.
  Proof. unfold advanced. repeat split; try ring; auto; apply H. Qed.
  Lemma advanced_trans x y z t u i j : advanced x y t i -> advanced y z u j -> advanced x z (t + u) (i + j).
  Proof.
    intros (A1 & A2 & A3 & A4 & A5) (B1 & B2 & B3 & B4 & B5). unfold advanced. rewrite B1, B2, B3, B4, A1, A2, A3, A4. repeat split; try ring; intros; apply B5, A5; assumption.
  Qed.

  Lemma run_fix_spec x r : run_fix k p x = Ok r -> repaired k (fix_admis p) (flow x) (fst r) (flow (snd r)) /\ advanced x (snd r) 0 0.
  Proof.
    unfold run_fix. destruct (fix_admissibility k (fix_admis p) (flow x)) as [[n s']| | |] eqn:E; cbn [bind]; try discriminate. intros H. injection H as <-. cbn [fst snd]. split; [apply (fix_repaired _ _ _ _ _ _ E)|].
    unfold advanced, in_sync. cbn. repeat split; try ring; try tauto; try (destruct H as (? & ? & ? & ?); congruence).
  Qed.

  Lemma run_stages_spec dt x r : run_stages k p dt x = Ok r ->
    advanced x (snd r) 0 0 /\ exists b1 f1 b2, repaired k (fix_admis p) (stage k dt 0 (flow x)) b1 f1 /\ repaired k (fix_admis p) (stage k dt 1 f1) b2 (flow (snd r)) /\ fst r = (b1 || b2)%bool.
  Proof.
    unfold run_stages. destruct (run_fix k p _) as [a| | |] eqn:E1; cbn [bind]; try discriminate. destruct (run_fix k p (with_flow (snd a) _)) as [b| | |] eqn:E2; cbn [bind]; try discriminate.
    intros H. injection H as <-. cbn [fst snd]. apply run_fix_spec in E1, E2. destruct E1 as (R1 & A1), E2 as (R2 & A2). cbn [with_flow flow] in *. split.
    - replace 0%R with (0 + 0)%R by ring. change 0%Z with (0 + 0)%Z. apply (advanced_trans _ (snd a)); [exact A1|exact A2].
    - exists (fst a), (flow (snd a)), (fst b). split; [exact R1|]. split; [exact R2|]. apply orb_comm.
  Qed.

  (** the sizes of the steps of one Chebyshev sweep *)
  Definition bounded_events (l : list event) : Prop := forall e, In e l -> exists i m, (i < n_cheby_flow p)%nat /\ (m <= max_time_step p)%R /\ step e = (m * chebyshev_step (n_cheby_flow p) i)%R.

  Lemma cheby_spec left : forall i x x', (i + left = n_cheby_flow p)%nat -> cheby_loop k p left i x = Ok x' ->
    exists l, steps k p l (flow x) (flow x') /\ advanced x x' (total_unfixed l) 0 /\ bounded_events l.
  Proof.
    induction left as [|left IH]; intros i x x' LI E; cbn [cheby_loop] in E.
    - injection E as <-. exists nil. split; [constructor|]. split; [apply advanced_refl|intros e []].
    - cbv zeta in E. destruct (run_stages k p _ _) as [r| | |] eqn:ER; cbn [bind] in E; try discriminate. apply run_stages_spec in ER. destruct ER as (A & b1 & f1 & b2 & R1 & R2 & EF).
      set (dt := (Rmin (fst (max_dt k (max_safety p / chebyshev_step (n_cheby_flow p) (n_cheby_flow p - 1)) (max_safety p) (flow x))) (max_time_step p) * chebyshev_step (n_cheby_flow p) i)%R) in *.
      assert (O : one_step k p {| step := dt; fixed := fst r |} (flow x) (flow (snd r))).
      { eexists _, b1, f1, b2. split; [exact R1|]. split; [exact R2|exact EF]. }
      assert (BE : exists i0 m, (i0 < n_cheby_flow p)%nat /\ (m <= max_time_step p)%R /\ dt = (m * chebyshev_step (n_cheby_flow p) i0)%R).
      { exists i. eexists. split; [lia|]. split; [|reflexivity]. apply Rmin_r. }
      destruct (fst r) eqn:EB.
      + injection E as <-. exists [{| step := dt; fixed := true |}]. split; [|split].
        * econstructor; [exact O|constructor].
        * cbn. replace (0 + 0)%R with 0%R by ring. exact A.
        * intros e [<-|[]]. exact BE.
      + apply IH in E; [|lia]. destruct E as (l & SL & AL & BL). exists ({| step := dt; fixed := false |} :: l). split; [|split].
        * econstructor; [exact O|]. exact SL.
        * cbn [total_unfixed fixed step]. change 0%Z with (0 + 0)%Z. apply (advanced_trans _ (count_time (snd r) dt)); [|exact AL].
          destruct A as (A1 & A2 & A3 & A4 & A5). unfold advanced. cbn in *. split; [lra|]. split; [lra|]. split; [lia|]. split; [lia|]. intros H. apply A5 in H. unfold in_sync in *. cbn. destruct H as (? & ? & ? & ?). repeat split; congruence.
        * intros e [<-|I]; [exact BE|apply BL; exact I].
  Qed.

  Lemma steps_app l l' f f' f'' : steps k p l f f' -> steps k p l' f' f'' -> steps k p (l ++ l') f f''.
  Proof. induction 1; intros; [assumption|]. cbn. econstructor; [eassumption|auto]. Qed.
  Lemma total_unfixed_app l l' : total_unfixed (l ++ l') = (total_unfixed l + total_unfixed l')%R.
  Proof. induction l as [|e l IH]; cbn; [ring|rewrite IH; ring]. Qed.
  Lemma bounded_app l l' : bounded_events l -> bounded_events l' -> bounded_events (l ++ l').
  Proof. intros A B e I. apply in_app_or in I. destruct I; [apply A|apply B]; assumption. Qed.

  Lemma flow_spec left : forall x x', flow_loop k p left x = Ok x' ->
    exists l, steps k p l (flow x) (flow x') /\ advanced x x' (total_unfixed l) 0 /\ bounded_events l.
  Proof.
    induction left as [|left IH]; intros x x' E; cbn [flow_loop] in E.
    - injection E as <-. exists nil. split; [constructor|]. split; [apply advanced_refl|intros e []].
    - destruct (cheby_loop k p (n_cheby_flow p) 0 x) as [y| | |] eqn:E1; cbn [bind] in E; try discriminate. apply cheby_spec in E1; [|lia]. apply IH in E. destruct E1 as (l & S1 & A1 & B1), E as (l' & S2 & A2 & B2).
      exists (l ++ l'). split; [eapply steps_app; eassumption|]. split; [|apply bounded_app; assumption]. rewrite total_unfixed_app. change 0%Z with (0 + 0)%Z. eapply advanced_trans; eassumption.
  Qed.

  Lemma update_spec x x' : update k p x = Ok x' -> exists l, steps k p l (flow x) (flow x') /\ advanced x x' (total_unfixed l) 1 /\ bounded_events l.
  Proof.
    unfold update. destruct (flow_loop k p (flow_iters p) x) as [y| | |] eqn:E1; cbn [bind]; try discriminate. intros H. injection H as <-. apply flow_spec in E1. destruct E1 as (l & S1 & A1 & B1). exists l. split; [exact S1|]. split; [|exact B1].
    destruct A1 as (A1 & A2 & A3 & A4 & A5). unfold advanced. cbn in *. split; [lra|]. split; [lra|]. split; [lia|]. split; [lia|]. intros H. apply A5 in H. unfold in_sync in *. cbn. destruct H as (? & ? & ? & ?). repeat split; congruence.
  Qed.

  Lemma updates_spec n : forall x x', updates k p n x = Ok x' -> exists l, steps k p l (flow x) (flow x') /\ advanced x x' (total_unfixed l) (Z.of_nat n) /\ bounded_events l.
  Proof.
    induction n as [|n IH]; intros x x' E; cbn [updates] in E.
    - injection E as <-. exists nil. split; [constructor|]. split; [apply advanced_refl|intros e []].
    - destruct (update k p x) as [y| | |] eqn:E1; cbn [bind] in E; try discriminate. apply update_spec in E1. apply IH in E. destruct E1 as (l & S1 & A1 & B1), E as (l' & S2 & A2 & B2).
      exists (l ++ l'). split; [eapply steps_app; eassumption|]. split; [|apply bounded_app; assumption]. rewrite total_unfixed_app. replace (Z.of_nat (S n)) with (1 + Z.of_nat n)%Z by lia. eapply advanced_trans; eassumption.
  Qed.
End Update.

Lemma total_no_fix l : (forall e, In e l -> fixed e = false) -> total_unfixed l = total l.
Proof. induction l as [|e l IH]; intros H; [reflexivity|]. cbn. rewrite (H e (or_introl eq_refl)), IH; [reflexivity|]. intros e' I. apply H. right. exact I. Qed.
