(** Proofs about the check of admissibility and the loop that restores it. *)
From Coq Require Import Reals List Arith Lia Lra Bool.
From Verif Require Import Outcome Loop Admis_Model Admis_Spec.
Import ListNotations.
Local Open Scope R_scope.

Lemma isfinite_spec x : isfinite x = true <-> finite x.
Proof. unfold finite. destruct x; cbn; split; intros H; try discriminate; try reflexivity; try (destruct H; discriminate). eauto. Qed.
Lemma gt0_spec x : finite x -> gt0 x = true <-> positive x.
Proof.
  intros [r ->]. unfold positive. cbn. destruct (Rlt_dec 0 r); split; intros H; try discriminate; try reflexivity; eauto. destruct H as (r' & E & P). injection E as ->. contradiction.
Qed.
Lemma ofold_check {X} (p : X -> bool) l : ofold (fun x _ => if p x then Ok tt else Throw) l tt = if forallb p l then Ok tt else Throw.
Proof. induction l as [|x l IH]; cbn [ofold forallb]; [reflexivity|]. destruct (p x); cbn [bind andb]; [exact IH|reflexivity]. Qed.
Lemma admissible_eq data nd n : admissible data nd n =
  if forallb (fun q => forallb (fun v => isfinite (data (v * n + q)%nat)) (seq 0 (nd + 2))) (seq 0 n) then Ok (forallb (fun q => gt0 (data (nd * n + q)%nat) && gt0 (data ((nd + 1) * n + q)%nat)) (seq 0 n)) else Throw.
Proof.
  unfold admissible. enough (G : forall l a, ofold (fun i_qpoint admiss =>
    let! _ := ofold (fun i_var _ => if isfinite (data (i_var * n + i_qpoint)%nat) then Ok tt else Throw) (seq 0 (nd + 2)) tt in
    Ok (admiss && gt0 (data (nd * n + i_qpoint)%nat) && gt0 (data ((nd + 1) * n + i_qpoint)%nat))%bool) l a =
    if forallb (fun q => forallb (fun v => isfinite (data (v * n + q)%nat)) (seq 0 (nd + 2))) l then Ok (a && forallb (fun q => gt0 (data (nd * n + q)%nat) && gt0 (data ((nd + 1) * n + q)%nat)) l) else Throw) by exact (G (seq 0 n) true).
  induction l as [|q l IH]; intros a; cbn [ofold]; [cbn [forallb]; now rewrite andb_true_r|].
  rewrite (ofold_check (fun v => isfinite (data (v * n + q)%nat))). cbn [forallb]. destruct (forallb _ (seq 0 (nd + 2))); cbn [bind andb]; [|reflexivity]. rewrite IH. now rewrite !andb_assoc.
Qed.
Lemma finite_spec data nd n : forallb (fun q => forallb (fun v => isfinite (data (v * n + q)%nat)) (seq 0 (nd + 2))) (seq 0 n) = true <-> all_finite nd n data.
Proof.
  rewrite forallb_forall. split.
  - intros H k K. assert (n <> 0)%nat by lia. specialize (H (k mod n)%nat). rewrite in_seq in H. specialize (H (conj (Nat.le_0_l _) (Nat.mod_upper_bound k n ltac:(assumption)))). rewrite forallb_forall in H.
    specialize (H (k / n)%nat). rewrite in_seq in H. apply isfinite_spec. replace k with (k / n * n + k mod n)%nat at 1 by (rewrite Nat.mul_comm; symmetry; apply Nat.div_mod; assumption). apply H.
    split; [lia|]. apply Nat.div_lt_upper_bound; lia.
  - intros H q Q. rewrite in_seq in Q. rewrite forallb_forall. intros v V. rewrite in_seq in V. apply isfinite_spec, H. nia.
Qed.
Lemma admissible_spec data nd n : match admissible data nd n with Ok b => all_finite nd n data /\ (b = true <-> good nd n data) | Throw => ~ all_finite nd n data | _ => False end.
Proof.
  rewrite admissible_eq. pose proof (finite_spec data nd n) as F. destruct (forallb _ (seq 0 n)) eqn:E.
  - assert (A : all_finite nd n data) by now apply F. split; [exact A|]. rewrite forallb_forall. unfold good. split.
    + intros H. split; [exact A|]. intros q Q. specialize (H q ltac:(apply in_seq; lia)). apply andb_prop in H. destruct H. split; (apply gt0_spec; [apply A; nia|assumption]).
    + intros [_ H] q Q. apply in_seq in Q. destruct (H q ltac:(lia)). apply andb_true_intro. split; (apply gt0_spec; [apply A; nia|assumption]).
  - intros A. apply F in A. congruence.
Qed.

(** a sequence of checks that stops at the first failure *)
Lemma ofold_checks {X} (f : X -> outcome bool) l a : match ofold (fun x (a : bool) => if a then f x else Ok false) l a with
  | Ok b => (b = true <-> a = true /\ forall x, In x l -> f x = Ok true) | Throw => exists x, In x l /\ f x = Throw | Ub => exists x, In x l /\ f x = Ub | NoFuel => exists x, In x l /\ f x = NoFuel end.
Proof.
  revert a; induction l as [|x l IH]; intros a; cbn [ofold]; [cbn; tauto|]. destruct a.
  - destruct (f x) as [b| | |] eqn:E; cbn [bind]; [|exists x; cbn; auto..]. specialize (IH b).
    destruct (ofold _ l b) as [c| | |]; [|destruct IH as (y & Y & H); exists y; cbn; auto..]. rewrite IH. split.
    + intros [-> H]. split; [reflexivity|]. intros y [<-|Y]; auto.
    + intros [_ H]. split; [|intros y Y; apply H; cbn; auto]. rewrite (H x) in E by (cbn; auto). now injection E as <-.
  - cbn [bind]. specialize (IH false). destruct (ofold _ l false) as [c| | |]; [|destruct IH as (y & Y & H); exists y; cbn; auto..]. rewrite IH. split; intros [H _]; discriminate.
Qed.

Section Check.
  Context (nd rs : nat) (ND : (1 <= nd)%nat) (RS : (1 <= rs)%nat).
  Lemma face_points : (nq nd rs / rs = rs ^ (nd - 1))%nat.
  Proof using ND RS. unfold nq. replace nd with (S (nd - 1)) at 1 by lia. cbn [Nat.pow]. rewrite Nat.mul_comm. apply Nat.div_mul. lia. Qed.
  Lemma n_fine_eq r : n_fine nd r = fine_faces nd r.
  Proof using ND RS.
    unfold n_fine, fine_faces. replace (2 ^ nd / 2)%nat with (2 ^ length (seq 0 (nd - 1)))%nat.
    2: { rewrite seq_length. replace nd with (S (nd - 1)) at 2 by lia. cbn [Nat.pow]. rewrite Nat.mul_comm. symmetry. apply Nat.div_mul. lia. }
    enough (G : forall l m, fold_left (fun n i_dim => (n / (1 + (if stretch r i_dim then 1 else 0)))%nat) l (2 ^ (length l + m))%nat = (2 ^ (length (filter (fun d => negb (stretch r d)) l) + m))%nat).
    { specialize (G (seq 0 (nd - 1)) 0%nat). rewrite !Nat.add_0_r in G. exact G. }
    induction l as [|d l IH]; intros m; cbn [fold_left length filter]; [reflexivity|]. destruct (stretch r d); cbn [negb].
    - replace (2 ^ (S (length l) + m))%nat with (2 ^ (length l + m) * 2)%nat by (cbn [Nat.add Nat.pow]; lia). change (1 + 1)%nat with 2%nat. rewrite Nat.div_mul by lia. apply IH.
    - change (1 + 0)%nat with 1%nat. rewrite Nat.div_1_r. replace (S (length l) + m)%nat with (length l + S m)%nat by lia. rewrite IH. f_equal. cbn [length]. lia.
  Qed.
  Lemma check_element_spec e : match check_element nd rs e with Ok b => b = true <-> good_element nd rs e | Throw => exists n data, block nd rs e n data /\ ~ all_finite nd n data | _ => False end.
  Proof using ND RS.
    unfold check_element. rewrite face_points. fold (nq nd rs). pose proof (admissible_spec (state e) nd (nq nd rs)) as S. destruct (admissible (state e) nd (nq nd rs)) as [a| | |]; cbn [bind]; [|exists (nq nd rs), (state e); split; [left; auto|exact S]|contradiction..].
    pose proof (ofold_checks (fun i => admissible (face e i) nd (rs ^ (nd - 1))) (seq 0 (nd * 2)) a) as F.
    destruct (ofold _ (seq 0 (nd * 2)) a) as [b| | |].
    - rewrite F. destruct S as [_ S]. rewrite S. split.
      + intros [G H] n data [[-> ->]|(i & I & -> & ->)]; [exact G|]. specialize (H i ltac:(apply in_seq; lia)). pose proof (admissible_spec (face e i) nd (rs ^ (nd - 1))) as Q. rewrite H in Q. now apply Q.
      + intros H. split; [apply H; left; auto|]. intros i I. apply in_seq in I. assert (G : good nd (rs ^ (nd - 1)) (face e i)) by (apply H; right; exists i; split; [lia|auto]).
        pose proof (admissible_spec (face e i) nd (rs ^ (nd - 1))) as Q. destruct (admissible (face e i) nd (rs ^ (nd - 1))) as [c| | |]; [|destruct (Q (proj1 G))|contradiction..]. f_equal. now apply Q.
    - destruct F as (i & I & T). apply in_seq in I. exists (rs ^ (nd - 1))%nat, (face e i). split; [right; exists i; split; [lia|auto]|]. pose proof (admissible_spec (face e i) nd (rs ^ (nd - 1))) as Q. now rewrite T in Q.
    - destruct F as (i & I & T). pose proof (admissible_spec (face e i) nd (rs ^ (nd - 1))) as Q. now rewrite T in Q.
    - destruct F as (i & I & T). pose proof (admissible_spec (face e i) nd (rs ^ (nd - 1))) as Q. now rewrite T in Q.
  Qed.
  Definition recorded (e : element) (r : nat) : Prop := r = 0%nat /\ good_element nd rs e \/ r = 1%nat /\ ~ good_element nd rs e.
  Lemma elements_spec elems : match ofold (fun elem acc => let '(admiss, records) := acc in let! elem_admis := check_element nd rs elem in
      Ok ((admiss && elem_admis)%bool, records ++ [if elem_admis then 0%nat else 1%nat])) elems (true, []) with
    | Ok (b, records) => (b = true <-> forall e, In e elems -> good_element nd rs e) /\ Forall2 recorded elems records
    | Throw => exists e n data, In e elems /\ block nd rs e n data /\ ~ all_finite nd n data | _ => False end.
  Proof using ND RS.
    enough (G : forall l done a records, (a = true <-> forall e, In e done -> good_element nd rs e) -> Forall2 recorded done records ->
      match ofold (fun elem acc => let '(admiss, records) := acc in let! elem_admis := check_element nd rs elem in
      Ok ((admiss && elem_admis)%bool, records ++ [if elem_admis then 0%nat else 1%nat])) l (a, records) with
      | Ok (b, records) => (b = true <-> forall e, In e (done ++ l) -> good_element nd rs e) /\ Forall2 recorded (done ++ l) records
      | Throw => exists e n data, In e l /\ block nd rs e n data /\ ~ all_finite nd n data | _ => False end).
    { apply (G elems [] true []); [cbn; tauto|constructor]. }
    induction l as [|e l IH]; intros dn a records A R; cbn [ofold].
    - rewrite app_nil_r. auto.
    - pose proof (check_element_spec e) as C. destruct (check_element nd rs e) as [b| | |]; cbn [bind]; [|destruct C as (n & data & B & F); exists e, n, data; cbn; auto|contradiction..].
      specialize (IH (dn ++ [e]) (a && b)%bool (records ++ [if b then 0%nat else 1%nat])). rewrite <- app_assoc in IH. cbn [app] in IH.
      match type of IH with _ -> _ -> match ?x with _ => _ end => destruct x as [[c rc]| | |] end.
      + apply IH.
        * rewrite andb_true_iff, A, C. split; [intros [H K] x X; apply in_app_or in X; destruct X as [X|[<-|[]]]; auto|intros H; split; [intros x X|]; apply H, in_or_app; cbn; auto].
        * apply Forall2_app; [exact R|]. constructor; [|constructor]. unfold recorded. destruct b; [left; split; [reflexivity|now apply C]|right; split; [reflexivity|]]. intros K. apply C in K. discriminate.
      + destruct IH as (x & n & data & X & B); [| |exists x, n, data; cbn; auto].
        * rewrite andb_true_iff, A, C. split; [intros [H K] x X; apply in_app_or in X; destruct X as [X|[<-|[]]]; auto|intros H; split; [intros x X|]; apply H, in_or_app; cbn; auto].
        * apply Forall2_app; [exact R|]. constructor; [|constructor]. unfold recorded. destruct b; [left; split; [reflexivity|now apply C]|right; split; [reflexivity|]]. intros K. apply C in K. discriminate.
      + apply IH.
        * rewrite andb_true_iff, A, C. split; [intros [H K] x X; apply in_app_or in X; destruct X as [X|[<-|[]]]; auto|intros H; split; [intros x X|]; apply H, in_or_app; cbn; auto].
        * apply Forall2_app; [exact R|]. constructor; [|constructor]. unfold recorded. destruct b; [left; split; [reflexivity|now apply C]|right; split; [reflexivity|]]. intros K. apply C in K. discriminate.
      + apply IH.
        * rewrite andb_true_iff, A, C. split; [intros [H K] x X; apply in_app_or in X; destruct X as [X|[<-|[]]]; auto|intros H; split; [intros x X|]; apply H, in_or_app; cbn; auto].
        * apply Forall2_app; [exact R|]. constructor; [|constructor]. unfold recorded. destruct b; [left; split; [reflexivity|now apply C]|right; split; [reflexivity|]]. intros K. apply C in K. discriminate.
  Qed.
  Lemma refined_spec refs a : match ofold (fun ref refined_admiss => ofold (fun i_fine refined_admiss => if (refined_admiss : bool) then admissible (fine ref i_fine) nd (nq nd rs / rs) else Ok false)
        (seq 0 (n_fine nd ref)) refined_admiss) refs a with
    | Ok b => b = true <-> a = true /\ forall r, In r refs -> good_refined nd rs r
    | Throw => exists r i, In r refs /\ (i < fine_faces nd r)%nat /\ ~ all_finite nd (rs ^ (nd - 1)) (fine r i) | _ => False end.
  Proof using ND RS.
    rewrite face_points. revert a; induction refs as [|r refs IH]; intros a; cbn [ofold]; [cbn; tauto|]. rewrite n_fine_eq.
    pose proof (ofold_checks (fun i => admissible (fine r i) nd (rs ^ (nd - 1))) (seq 0 (fine_faces nd r)) a) as F.
    destruct (ofold _ (seq 0 (fine_faces nd r)) a) as [b| | |]; cbn [bind].
    - specialize (IH b). destruct (ofold _ refs b) as [c| | |]; [|destruct IH as (x & i & X & H); exists x, i; cbn; auto|contradiction..]. rewrite IH, F. split.
      + intros [[-> H] K]. split; [reflexivity|]. intros x [<-|X]; [|auto]. intros i I. specialize (H i ltac:(apply in_seq; lia)). pose proof (admissible_spec (fine r i) nd (rs ^ (nd - 1))) as Q. rewrite H in Q. now apply Q.
      + intros [-> H]. split; [split; [reflexivity|]|intros x X; apply H; cbn; auto]. intros i I. apply in_seq in I. assert (G : good nd (rs ^ (nd - 1)) (fine r i)) by (apply H; [cbn; auto|lia]).
        pose proof (admissible_spec (fine r i) nd (rs ^ (nd - 1))) as Q. destruct (admissible (fine r i) nd (rs ^ (nd - 1))) as [c'| | |]; [|destruct (Q (proj1 G))|contradiction..]. f_equal. now apply Q.
    - destruct F as (i & I & T). apply in_seq in I. exists r, i. split; [cbn; auto|]. split; [lia|]. pose proof (admissible_spec (fine r i) nd (rs ^ (nd - 1))) as Q. now rewrite T in Q.
    - destruct F as (i & I & T). pose proof (admissible_spec (fine r i) nd (rs ^ (nd - 1))) as Q. now rewrite T in Q.
    - destruct F as (i & I & T). pose proof (admissible_spec (fine r i) nd (rs ^ (nd - 1))) as Q. now rewrite T in Q.
  Qed.
End Check.

(** the loop *)
Section Fix.
  Context {flow : Type} (admis : flow -> outcome bool) (coefs : flow -> nat -> R) (smear : flow -> (nat -> R) -> (nat -> R) -> flow) (limit : nat).
  Notation step := (iteration coefs smear).
  Context (s0 : solver flow).
  Notation s k := (Nat.iter k step s0).
  Notation adm := (fun x : solver flow => admis (the_flow x)).
  Notation seen := (fun k => s k).
  Definition inv (iter : nat) (n_iters : option nat) : Prop :=
    match n_iters with
    | None => (iter = 0%nat \/ adm (s (iter - 1)) = Ok false) /\ forall j, (2 * j <= iter)%nat -> ~ settled adm seen j
    | Some n => exists i, n = (2 * i)%nat /\ (1 <= i < iter)%nat /\ (iter <= 2 * i)%nat /\ (forall k, (i <= k < iter)%nat -> adm (s k) = Ok true) /\ forall j, (j < i)%nat -> ~ settled adm seen j
    end.
  Lemma loop_spec : adm s0 = Ok false -> forall fuel iter n_iters, (limit + 2 <= fuel + iter)%nat -> (iter <= limit)%nat -> inv iter n_iters ->
    match fix_loop admis coefs smear limit fuel iter n_iters (s iter) with
    | Ok (it, s') => exists i, settled adm seen i /\ (2 * i <= limit)%nat /\ (forall j, (j < i)%nat -> ~ settled adm seen j) /\ it = (2 * i)%nat /\ s' = s it
    | _ => forall i, settled adm seen i -> (2 * i <= limit)%nat -> (forall k, (k < 2 * i)%nat -> exists b, adm (s k) = Ok b) -> False
    end.
  Proof.
    intros F0. induction fuel as [|fuel IH]; intros iter n FU LI V; [exfalso; lia|]. cbn [fix_loop].
    destruct (match n with None => true | Some n => (iter <? n)%nat end) eqn:EX.
    - assert (BND : forall i, settled adm seen i -> (iter < 2 * i)%nat).
      { intros i S. destruct n as [n|]; cbn in V.
        - destruct V as (i' & -> & I & I2 & A & M). apply Nat.ltb_lt in EX. destruct (Nat.le_gt_cases i' i); [lia|]. destruct (M i ltac:(lia) S).
        - destruct V as [_ M]. destruct (Nat.le_gt_cases (2 * i) iter) as [L|]; [destruct (M i L S)|assumption]. }
      destruct (Nat.ltb_spec iter limit) as [LT|GE].
      2: { intros i S L _. specialize (BND i S). lia. }
      destruct (admis (the_flow (s iter))) as [[|]| | |] eqn:AD; cbn [bind].
      + destruct (Nat.eqb_spec iter 0) as [->|NZ]; [cbn in AD; congruence|].
        apply (IH (S iter)); [lia|lia|]. unfold inv. destruct n as [n|]; cbn in V.
        * destruct V as (i & -> & I & I2 & A & M). apply Nat.ltb_lt in EX. exists i. split; [lia|]. split; [lia|]. split; [lia|]. split; [|exact M]. intros k K. destruct (Nat.eq_dec k iter) as [->|]; [exact AD|apply A; lia].
        * destruct V as [P M]. exists iter. split; [lia|]. split; [lia|]. split; [lia|]. split; [intros k K; replace k with iter by lia; exact AD|].
          intros j J S. destruct (Nat.le_gt_cases (2 * j) iter) as [L|G]; [exact (M j L S)|]. destruct P as [P|P]; [lia|]. destruct S as [_ S]. specialize (S (iter - 1)%nat ltac:(lia)). cbv beta in S, P. congruence.
      + apply (IH (S iter)); [lia|lia|]. unfold inv. split; [right; replace (S iter - 1)%nat with iter by lia; exact AD|]. intros j J S.
        destruct (Nat.le_gt_cases j iter) as [JI|JI].
        * destruct (Nat.le_gt_cases (2 * j) iter) as [L|G]; [specialize (BND j S); lia|]. destruct S as [_ S]. specialize (S iter ltac:(lia)). cbv beta in S. congruence.
        * destruct S as [S _]. lia.
      + intros i S L B. specialize (BND i S). destruct (B iter ltac:(lia)) as [b Q]. cbv beta in Q. congruence.
      + intros i S L B. specialize (BND i S). destruct (B iter ltac:(lia)) as [b Q]. cbv beta in Q. congruence.
      + intros i S L B. specialize (BND i S). destruct (B iter ltac:(lia)) as [b Q]. cbv beta in Q. congruence.
    - destruct n as [n|]; [|discriminate]. cbn in V. destruct V as (i & -> & I & I2 & A & M). apply Nat.ltb_ge in EX. assert (iter = 2 * i)%nat by lia. exists i. split; [split; [lia|intros k K; apply A; lia]|]. split; [lia|]. split; [exact M|]. split; [lia|reflexivity].
  Qed.
  Lemma iter_bulk k : bulk_av (s k) = bulk_av s0.
  Proof. induction k as [|k IH]; [reflexivity|]. exact IH. Qed.
End Fix.
