From Coq Require Import List Arith Lia Bool.
From Verif Require Import Outcome Mutual_Model Mutual_Spec.
Import ListNotations.

Definition mutual (h : heap) : Prop := forall a b, partner_of h a = Some b -> partner_of h b = Some a /\ type_of h b = swap (type_of h a).

Lemma partner_alive h a b : partner_of h a = Some b -> alive h a.
Proof. unfold partner_of, alive. destruct (h a); congruence. Qed.
Lemma get_alive h a : alive h a -> exists c, h a = Some c.
Proof. unfold alive. destruct (h a) as [c|]; [eauto|congruence]. Qed.

(** same objects and data, partners given by [p] *)
Definition repartnered (h h' : heap) (p : nat -> option nat) : Prop :=
  (forall x, alive h' x <-> alive h x) /\ (forall x, type_of h' x = type_of h x) /\ (forall x, mine_of h' x = mine_of h x)
  /\ forall x, partner_of h' x = p x.

Lemma set_partner_spec h a p : alive h a ->
  exists h', set_partner h a p = Ok h' /\ repartnered h h' (fun x => if x =? a then p else partner_of h x).
Proof.
  intros Ha. destruct (get_alive h a Ha) as [c Ec]. unfold set_partner, get. rewrite Ec. cbn.
  eexists. split; [reflexivity|]. unfold repartnered, alive, type_of, mine_of, partner_of.
  split; [|split; [|split]]; intros x; destruct (Nat.eqb_spec x a) as [->|]; rewrite ?Ec; cbn; try reflexivity.
  split; discriminate.
Qed.

Lemma repart_trans h h' h'' p q : repartnered h h' p -> repartnered h' h'' q -> repartnered h h'' q.
Proof.
  intros (A & B & C & D) (A' & B' & C' & D'). split; [|split; [|split]].
  - intros x. rewrite A'. apply A.
  - intros x. rewrite B'. apply B.
  - intros x. rewrite C'. apply C.
  - apply D'.
Qed.
Lemma repart_ext h h' p q : (forall x, p x = q x) -> repartnered h h' p -> repartnered h h' q.
Proof. intros E (A & B & C & D). split; [exact A|]. split; [exact B|]. split; [exact C|]. intros x. now rewrite <- E. Qed.
Lemma repart_refl h : repartnered h h (partner_of h).
Proof. repeat split; auto. Qed.

Definition p_is (h : heap) (x a : nat) : bool := match partner_of h x with Some y => y =? a | None => false end.
Definition unpaired_fn h a x : option nat := if (x =? a) || p_is h x a then None else partner_of h x.

Lemma unpair_spec h a : mutual h -> alive h a -> exists h', unpair h a = Ok h' /\ repartnered h h' (unpaired_fn h a).
Proof.
  intros M Ha. destruct (get_alive h a Ha) as [c Ec]. unfold unpair, get. rewrite Ec. cbn.
  destruct (partner c) as [p|] eqn:Ep.
  - assert (Pa : partner_of h a = Some p) by (unfold partner_of; now rewrite Ec).
    destruct (M a p Pa) as [Pp Tp].
    destruct (set_partner_spec h p None (partner_alive _ _ _ Pp)) as (h1 & E1 & R1). rewrite E1. cbn.
    destruct (set_partner_spec h1 a None) as (h2 & E2 & R2); [now apply R1|].
    exists h2. split; [exact E2|]. eapply repart_ext; [|exact (repart_trans _ _ _ _ _ R1 R2)].
    intros x. cbv beta. unfold unpaired_fn. destruct (Nat.eqb_spec x a) as [->|Hxa]; [reflexivity|]. cbn [orb].
    destruct R1 as (_ & _ & _ & R1). rewrite R1. destruct (Nat.eqb_spec x p) as [->|Hxp].
    + unfold p_is. now rewrite Pp, Nat.eqb_refl.
    + unfold p_is. destruct (partner_of h x) as [y|] eqn:Ey; [|reflexivity].
      destruct (Nat.eqb_spec y a) as [->|]; [|reflexivity].
      destruct (M _ _ Ey) as [Q _]. congruence.
  - exists h. split; [reflexivity|]. eapply repart_ext; [|apply repart_refl].
    intros x. assert (Pa : partner_of h a = None) by (unfold partner_of; now rewrite Ec).
    unfold unpaired_fn, p_is. destruct (Nat.eqb_spec x a) as [->|]; [exact Pa|]. cbn [orb].
    destruct (partner_of h x) as [y|] eqn:Ey; [|reflexivity]. destruct (Nat.eqb_spec y a) as [->|]; [|reflexivity].
    destruct (M _ _ Ey) as [Q _]. congruence.
Qed.

Lemma unpaired_mutual h h' a : mutual h -> repartnered h h' (unpaired_fn h a) -> mutual h'.
Proof.
  intros M (A & B & C & D) x y E. rewrite D in E. unfold unpaired_fn in E.
  destruct (Nat.eqb_spec x a) as [->|Hx]; cbn [orb] in E; [discriminate|].
  destruct (p_is h x a) eqn:Pi; [discriminate|]. destruct (M _ _ E) as [E' T]. rewrite !B, D. split; [|exact T].
  unfold unpaired_fn. unfold p_is in *. rewrite E in Pi. rewrite E', Pi. cbn [orb].
  destruct (Nat.eqb_spec x a); congruence.
Qed.

Definition paired_fn h a b x : option nat :=
  if x =? b then Some a else if x =? a then Some b else if p_is h x a || p_is h x b then None else partner_of h x.

Lemma pair_spec h a b : mutual h -> alive h a -> alive h b ->
  exists h', pair_with h a b = Ok h' /\ repartnered h h' (paired_fn h a b).
Proof.
  intros M Ha Hb. unfold pair_with.
  destruct (unpair_spec h a M Ha) as (h1 & E1 & R1). rewrite E1. cbn [bind].
  pose proof (unpaired_mutual _ _ _ M R1) as M1.
  destruct (unpair_spec h1 b M1) as (h2 & E2 & R2); [now apply R1|]. rewrite E2. cbn [bind].
  destruct (set_partner_spec h2 a (Some b)) as (h3 & E3 & R3); [apply R2; now apply R1|]. rewrite E3. cbn [bind].
  destruct (set_partner_spec h3 b (Some a)) as (h4 & E4 & R4); [apply R3, R2; now apply R1|].
  exists h4. split; [exact E4|].
  eapply repart_ext; [|exact (repart_trans _ _ _ _ _ R1 (repart_trans _ _ _ _ _ R2 (repart_trans _ _ _ _ _ R3 R4)))].
  intros x. cbv beta. unfold paired_fn. destruct (Nat.eqb_spec x b) as [->|Hxb]; [reflexivity|].
  destruct R3 as (_ & _ & _ & R3). rewrite R3. destruct (Nat.eqb_spec x a) as [->|Hxa]; [reflexivity|].
  destruct R2 as (_ & _ & _ & R2). rewrite R2. unfold unpaired_fn at 1. apply Nat.eqb_neq in Hxb. rewrite Hxb. cbn [orb].
  unfold p_is at 1. destruct R1 as (_ & _ & _ & R1). rewrite !R1. unfold unpaired_fn. apply Nat.eqb_neq in Hxa. rewrite Hxa. cbn [orb].
  destruct (p_is h x a); [reflexivity|]. cbn [orb]. unfold p_is. destruct (partner_of h x) as [y|]; [|reflexivity].
  destruct (y =? b); reflexivity.
Qed.

Lemma paired_mutual h h' a b : mutual h -> type_of h b = swap (type_of h a) -> repartnered h h' (paired_fn h a b) -> mutual h'.
Proof.
  intros M T (A & B & C & D) x y E. rewrite D in E. rewrite D, !B.
  assert (T' : type_of h a = swap (type_of h b)) by (rewrite T; destruct (type_of h a) as [[]|]; reflexivity).
  unfold paired_fn in E. destruct (Nat.eqb_spec x b) as [->|Hxb].
  - inversion E; subst y. split; [|exact T']. unfold paired_fn. destruct (Nat.eqb_spec a b); [congruence|]. now rewrite Nat.eqb_refl.
  - destruct (Nat.eqb_spec x a) as [->|Hxa].
    + inversion E; subst y. split; [|exact T]. unfold paired_fn. now rewrite Nat.eqb_refl.
    + destruct (p_is h x a || p_is h x b) eqn:Pi; [discriminate|]. apply orb_false_elim in Pi. destruct Pi as [Pia Pib].
      destruct (M _ _ E) as [E' Ty]. split; [|exact Ty]. unfold paired_fn. unfold p_is in *. rewrite E in Pia, Pib. rewrite E', Pia, Pib.
      apply Nat.eqb_neq in Hxa, Hxb. now rewrite Hxa, Hxb.
Qed.

Lemma set_mine_spec h a m : alive h a ->
  exists h', set_mine h a m = Ok h' /\ (forall x, alive h' x <-> alive h x) /\ (forall x, type_of h' x = type_of h x)
    /\ (forall x, mine_of h' x = if x =? a then m else mine_of h x) /\ (forall x, partner_of h' x = partner_of h x).
Proof.
  intros Ha. destruct (get_alive h a Ha) as [c Ec]. unfold set_mine, get. rewrite Ec. cbn.
  eexists. split; [reflexivity|]. unfold alive, type_of, mine_of, partner_of.
  split; [|split; [|split]]; intros x; destruct (Nat.eqb_spec x a) as [->|]; rewrite ?Ec; cbn; try reflexivity.
  split; discriminate.
Qed.

Definition assigned_fn h a b x : option nat :=
  match unpaired_fn h a b with None => unpaired_fn h a x | Some p =>
    if x =? p then Some a else if x =? a then Some p else if p_is h x a || p_is h x p then None else partner_of h x end.

Lemma move_assign_spec h a b : mutual h -> alive h a -> alive h b -> type_of h a = type_of h b ->
  exists h', move_assign h a b = Ok h' /\ (forall x, alive h' x <-> alive h x) /\ (forall x, type_of h' x = type_of h x)
    /\ (forall x, mine_of h' x = if x =? a then mine_of h b else mine_of h x)
    /\ (forall x, partner_of h' x = assigned_fn h a b x) /\ mutual h'.
Proof.
  intros M Ha Hb T. unfold move_assign.
  destruct (unpair_spec h a M Ha) as (h1 & E1 & R1). rewrite E1. cbn [bind].
  pose proof (unpaired_mutual _ _ _ M R1) as M1. destruct R1 as (A1 & B1 & C1 & D1).
  destruct (get_alive h1 b) as [cb Ecb]; [now apply A1|]. unfold get at 1. rewrite Ecb. cbn [of_option_ub bind].
  destruct (set_mine_spec h1 a (mine cb)) as (h2 & E2 & A2 & B2 & C2 & D2); [now apply A1|]. rewrite E2. cbn [bind].
  assert (Emb : mine cb = mine_of h b) by (rewrite <- C1; unfold mine_of; now rewrite Ecb).
  assert (M2 : mutual h2). { intros x y. rewrite !D2, !B2. apply M1. }
  destruct (get_alive h2 b) as [cb2 Ecb2]; [now apply A2, A1|]. unfold get. rewrite Ecb2. cbn [of_option_ub bind].
  assert (Epb : partner cb2 = unpaired_fn h a b) by (rewrite <- D1, <- D2; unfold partner_of; now rewrite Ecb2).
  rewrite Epb. unfold assigned_fn. destruct (unpaired_fn h a b) as [p|] eqn:Ep.
  - assert (P2 : partner_of h2 b = Some p) by (rewrite D2, D1; exact Ep).
    destruct (M2 _ _ P2) as [P2' T2].
    destruct (pair_spec h2 a p M2) as (h3 & E3 & R3); [now apply A2, A1|exact (partner_alive _ _ _ P2')|].
    exists h3. split; [exact E3|].
    assert (M3 : mutual h3). { apply (paired_mutual h2 h3 a p M2); [|exact R3]. rewrite T2. f_equal. rewrite !B2, !B1. now symmetry. }
    destruct R3 as (A3 & B3 & C3 & D3). split; [|split; [|split; [|split]]].
    + intros x. rewrite A3, A2. apply A1.
    + intros x. now rewrite B3, B2, B1.
    + intros x. rewrite C3, C2, Emb, C1. reflexivity.
    + intros x. rewrite D3. unfold paired_fn. destruct (Nat.eqb_spec x p); [reflexivity|]. destruct (Nat.eqb_spec x a); [reflexivity|].
      unfold p_is. rewrite D2, D1. unfold unpaired_fn. destruct (Nat.eqb_spec x a); [congruence|]. cbn [orb].
      unfold p_is. destruct (partner_of h x) as [y|]; [|reflexivity].
      destruct (Nat.eqb_spec y a) as [|n2]; cbn [orb]; [reflexivity|]. apply Nat.eqb_neq in n2. rewrite n2. reflexivity.
    + exact M3.
  - exists h2. split; [reflexivity|]. split; [|split; [|split; [|split]]].
    + intros x. rewrite A2. apply A1.
    + intros x. now rewrite B2, B1.
    + intros x. rewrite C2, Emb, C1. reflexivity.
    + intros x. now rewrite D2, D1.
    + exact M2.
Qed.

Lemma unpaired_self_alive h a : partner_of h a = None -> ~ alive h a \/ alive h a.
Proof. intros _. unfold alive. destruct (h a); [right; discriminate|left; auto]. Qed.

Definition fresh (h : heap) a c : heap := fun x => if x =? a then Some c else h x.
Lemma fresh_spec h a c : mutual h -> ~ alive h a -> partner c = None ->
  mutual (fresh h a c) /\ (forall x, alive (fresh h a c) x <-> x = a \/ alive h x)
  /\ (forall x, partner_of (fresh h a c) x = partner_of h x) /\ (forall x, x <> a -> mine_of (fresh h a c) x = mine_of h x)
  /\ (forall x, x <> a -> type_of (fresh h a c) x = type_of h x) /\ mine_of (fresh h a c) a = mine c
  /\ type_of (fresh h a c) a = Some (tt c, uu c).
Proof.
  intros M Ha Hc. assert (Ea : h a = None) by (unfold alive in Ha; destruct (h a); [exfalso; apply Ha; discriminate|reflexivity]).
  assert (D : forall x, partner_of (fresh h a c) x = partner_of h x).
  { intros x. unfold partner_of, fresh. destruct (Nat.eqb_spec x a) as [->|]; [now rewrite Ea|reflexivity]. }
  assert (B : forall x, x <> a -> type_of (fresh h a c) x = type_of h x).
  { intros x Hx. unfold type_of, fresh. apply Nat.eqb_neq in Hx. now rewrite Hx. }
  split; [|split; [|split; [|split; [|split; [|split]]]]].
  - intros x y. rewrite !D. intros E. destruct (M _ _ E) as [E' T]. split; [exact E'|]. rewrite !B; [exact T| |].
    + intros ->. apply Ha. now apply partner_alive in E.
    + intros ->. apply Ha. now apply partner_alive in E'.
  - intros x. unfold alive, fresh. destruct (Nat.eqb_spec x a) as [->|]; [split; [auto|discriminate]|]. tauto.
  - exact D.
  - intros x Hx. unfold mine_of, fresh. apply Nat.eqb_neq in Hx. now rewrite Hx.
  - exact B.
  - unfold mine_of, fresh. now rewrite Nat.eqb_refl.
  - unfold type_of, fresh. now rewrite Nat.eqb_refl.
Qed.

Lemma removed_mutual h a : mutual h -> partner_of h a = None -> mutual (fun x => if x =? a then None else h x).
Proof.
  intros M Ha x y E. unfold partner_of in E. destruct (Nat.eqb_spec x a) as [->|Hx]; [discriminate|].
  change (partner_of h x = Some y) in E. destruct (M _ _ E) as [E' T].
  assert (y <> a) by congruence.
  unfold partner_of, type_of. apply Nat.eqb_neq in H, Hx. rewrite H, Hx. split; assumption.
Qed.

Lemma unpaired_self h a : unpaired_fn h a a = None.
Proof. unfold unpaired_fn. now rewrite Nat.eqb_refl. Qed.

Lemma step_ok h o : mutual h -> legal h o ->
  (exists a t u, o = Construct a t u None /\ step h o = Throw) \/ exists h', step h o = Ok h' /\ mutual h'.
Proof.
  intros M L. destruct o as [a t u data|a b|a b|a b|a|a]; cbn [step legal] in *.
  - destruct data as [m|]; [right|left; eauto]. eexists. split; [reflexivity|].
    now apply (fresh_spec h a (mk_cell t u (Some m) None) M L).
  - destruct L as [La Lb]. right. destruct (get_alive h b Lb) as [cb Ecb]. unfold get. rewrite Ecb. cbn [of_option_ub bind].
    destruct (fresh_spec h a (mk_cell (tt cb) (uu cb) None None) M La eq_refl) as (M1 & A1 & D1 & C1 & B1 & _ & Ta).
    assert (a <> b) by (intros ->; contradiction).
    destruct (move_assign_spec _ a b M1) as (h' & E & _ & _ & _ & _ & M'); [apply A1; auto|apply A1; auto| |].
    + rewrite Ta, B1 by congruence. unfold type_of. now rewrite Ecb.
    + exists h'. split; [exact E|exact M'].
  - right. destruct L as (La & Lb & T). destruct (move_assign_spec _ a b M La Lb T) as (h' & E & _ & _ & _ & _ & M'). eauto.
  - right. destruct L as (La & Lb & T). destruct (pair_spec h a b M La Lb) as (h' & E & R). exists h'. split; [exact E|].
    exact (paired_mutual _ _ _ _ M T R).
  - right. destruct (unpair_spec h a M L) as (h' & E & R). exists h'. split; [exact E|]. exact (unpaired_mutual _ _ _ M R).
  - right. destruct (unpair_spec h a M L) as (h' & E & R). rewrite E. cbn [bind]. eexists. split; [reflexivity|].
    apply removed_mutual; [exact (unpaired_mutual _ _ _ M R)|]. destruct R as (_ & _ & _ & D). rewrite D. apply unpaired_self.
Qed.

Lemma reachable_mutual h : reachable h -> mutual h.
Proof.
  induction 1 as [|h o h' R M L E].
  - intros a b. discriminate.
  - destruct (step_ok h o M L) as [(a & t & u & -> & Et)|(h2 & E2 & M2)]; [congruence|].
    rewrite E2 in E. now inversion E; subst.
Qed.

(** ** Statements about single operations *)

Lemma pair_effect h a b h' : reachable h -> legal h (Pair a b) -> step h (Pair a b) = Ok h' ->
  partner_of h' a = Some b /\ partner_of h' b = Some a
  /\ (forall x, x <> a -> x <> b -> partner_of h x = Some a \/ partner_of h x = Some b -> partner_of h' x = None)
  /\ (forall x, x <> a -> x <> b -> partner_of h x <> Some a -> partner_of h x <> Some b -> partner_of h' x = partner_of h x)
  /\ (forall x, mine_of h' x = mine_of h x).
Proof.
  intros R (La & Lb & T) E. pose proof (reachable_mutual h R) as M. destruct (pair_spec h a b M La Lb) as (h2 & E2 & A & B & C & D).
  cbn [step] in E. rewrite E2 in E. inversion E; subst h2. rewrite !D. unfold paired_fn. rewrite !Nat.eqb_refl.
  split; [|split; [reflexivity|split; [|split; [|exact C]]]].
  - destruct (Nat.eqb_spec a b); congruence.
  - intros x Ha Hb P. rewrite D. unfold paired_fn, p_is. apply Nat.eqb_neq in Ha, Hb. rewrite Ha, Hb.
    destruct P as [-> | ->]; rewrite Nat.eqb_refl, ?orb_true_r; reflexivity.
  - intros x Ha Hb Pa Pb. rewrite D. unfold paired_fn, p_is. apply Nat.eqb_neq in Ha, Hb. rewrite Ha, Hb.
    destruct (partner_of h x) as [y|]; [|reflexivity]. destruct (Nat.eqb_spec y a), (Nat.eqb_spec y b); cbn [orb]; congruence.
Qed.

Lemma unpair_effect h a h' : reachable h -> legal h (Unpair a) -> step h (Unpair a) = Ok h' ->
  partner_of h' a = None /\ (forall x, partner_of h x = Some a -> partner_of h' x = None)
  /\ (forall x, x <> a -> partner_of h x <> Some a -> partner_of h' x = partner_of h x)
  /\ (forall x, mine_of h' x = mine_of h x) /\ (forall x, alive h' x <-> alive h x).
Proof.
  intros R L E. pose proof (reachable_mutual h R) as M. destruct (unpair_spec h a M L) as (h2 & E2 & A & B & C & D).
  cbn [step] in E. rewrite E2 in E. inversion E; subst h2. split; [|split; [|split; [|split; [exact C|exact A]]]].
  - rewrite D. apply unpaired_self.
  - intros x P. rewrite D. unfold unpaired_fn, p_is. rewrite P, Nat.eqb_refl, orb_true_r. reflexivity.
  - intros x Hx P. rewrite D. unfold unpaired_fn, p_is. apply Nat.eqb_neq in Hx. rewrite Hx. cbn [orb].
    destruct (partner_of h x) as [y|]; [|reflexivity]. destruct (Nat.eqb_spec y a); congruence.
Qed.

Lemma destroy_effect h a h' : reachable h -> legal h (Destroy a) -> step h (Destroy a) = Ok h' ->
  ~ alive h' a /\ (forall x, partner_of h' x <> Some a)
  /\ (forall x, partner_of h x = Some a -> partner_of h' x = None)
  /\ (forall x, x <> a -> partner_of h x <> Some a -> partner_of h' x = partner_of h x)
  /\ (forall x, x <> a -> mine_of h' x = mine_of h x /\ (alive h' x <-> alive h x)).
Proof.
  intros R L E. pose proof (reachable_mutual h R) as M.
  cbn [step] in E. destruct (unpair h a) as [h1| | |] eqn:E1; try discriminate. cbn [bind] in E. inversion E; subst h'.
  destruct (unpair_effect h a h1 R L E1) as (P1 & P2 & P3 & P4 & P5).
  assert (Q : forall x, x <> a -> partner_of (fun y => if y =? a then None else h1 y) x = partner_of h1 x).
  { intros x Hx. unfold partner_of. apply Nat.eqb_neq in Hx. now rewrite Hx. }
  assert (Qa : partner_of (fun y => if y =? a then None else h1 y) a = None).
  { unfold partner_of. now rewrite Nat.eqb_refl. }
  destruct (unpair_spec h a M L) as (h2 & E2 & R2). rewrite E1 in E2. inversion E2; subst h2.
  pose proof (unpaired_mutual _ _ _ M R2) as M1.
  split; [|split; [|split; [|split]]].
  - unfold alive. rewrite Nat.eqb_refl. auto.
  - intros x. destruct (Nat.eq_dec x a) as [->|Hx]; [rewrite Qa; discriminate|]. rewrite Q by assumption.
    intros Px. destruct (M1 _ _ Px). congruence.
  - intros x Px. destruct (Nat.eq_dec x a) as [->|Hx]; [exact Qa|]. rewrite Q by assumption. now apply P2.
  - intros x Hx Px. rewrite Q by assumption. now apply P3.
  - intros x Hx. assert (Hx' := Hx). apply Nat.eqb_neq in Hx'. split.
    + rewrite <- P4. unfold mine_of. now rewrite Hx'.
    + rewrite <- P5. unfold alive. now rewrite Hx'.
Qed.

(** [a] receives the partner of [b] *)
Lemma assign_effect h a b h' : reachable h -> legal h (MoveAssign a b) -> step h (MoveAssign a b) = Ok h' -> a <> b ->
  partner_of h b <> Some b -> partner_of h b <> Some a ->
  partner_of h' a = partner_of h b /\ partner_of h' b = None /\ (forall x, partner_of h' x <> Some b)
  /\ (forall x, x <> a -> x <> b -> partner_of h x = Some a -> partner_of h' x = None)
  /\ (forall x, x <> a -> x <> b -> partner_of h x <> Some a -> partner_of h x <> Some b -> partner_of h' x = partner_of h x)
  /\ (forall x, mine_of h' x = if x =? a then mine_of h b else mine_of h x).
Proof.
  intros R (La & Lb & T) E Hab Hb1 Hb2. pose proof (reachable_mutual h R) as M.
  destruct (move_assign_spec h a b M La Lb T) as (h2 & E2 & A & B & C & D & M2).
  cbn [step] in E. rewrite E2 in E. inversion E; subst h2. clear E E2.
  assert (U : unpaired_fn h a b = partner_of h b).
  { unfold unpaired_fn, p_is. destruct (Nat.eqb_spec b a); [congruence|]. cbn [orb]. destruct (partner_of h b) as [y|]; [|reflexivity].
    destruct (Nat.eqb_spec y a); congruence. }
  assert (Pb : partner_of h' b = None).
  { rewrite D. unfold assigned_fn. rewrite U. destruct (partner_of h b) as [p|] eqn:Ep.
    - destruct (Nat.eqb_spec b p); [congruence|]. destruct (Nat.eqb_spec b a); [congruence|].
      unfold p_is. rewrite Ep, Nat.eqb_refl, orb_true_r. reflexivity.
    - reflexivity. }
  split; [|split; [|split; [|split; [|split; [|exact C]]]]].
  - rewrite D. unfold assigned_fn. rewrite U. destruct (partner_of h b) as [p|] eqn:Ep; [|apply unpaired_self].
    destruct (Nat.eqb_spec a p); [congruence|]. now rewrite Nat.eqb_refl.
  - exact Pb.
  - intros x Px. destruct (M2 _ _ Px). congruence.
  - intros x Ha Hb P. rewrite D. unfold assigned_fn. rewrite U. destruct (partner_of h b) as [p|] eqn:Ep.
    + destruct (Nat.eqb_spec x p) as [->|]; [exfalso; destruct (M _ _ Ep); congruence|].
      apply Nat.eqb_neq in Ha. rewrite Ha. unfold p_is. now rewrite P, Nat.eqb_refl.
    + unfold unpaired_fn, p_is. rewrite P, Nat.eqb_refl, orb_true_r. reflexivity.
  - intros x Ha Hb Pa Pb'. rewrite D. unfold assigned_fn. rewrite U. destruct (partner_of h b) as [p|] eqn:Ep.
    + destruct (Nat.eqb_spec x p) as [->|]; [exfalso; destruct (M _ _ Ep); congruence|].
      apply Nat.eqb_neq in Ha. rewrite Ha. unfold p_is. destruct (partner_of h x) as [y|] eqn:Ey; [|reflexivity].
      destruct (Nat.eqb_spec y a); [congruence|]. cbn [orb].
      destruct (Nat.eqb_spec y p) as [->|]; [|reflexivity]. destruct (M _ _ Ep), (M _ _ Ey). congruence.
    + unfold unpaired_fn, p_is. apply Nat.eqb_neq in Ha. rewrite Ha. cbn [orb].
      destruct (partner_of h x) as [y|]; [|reflexivity]. destruct (Nat.eqb_spec y a); congruence.
Qed.

Lemma type_neq h a b : reachable h -> partner_of h b = Some a -> type_of h a = type_of h b -> forall t u, type_of h b = Some (t, u) -> t = u.
Proof.
  intros R P T t u Tb. destruct (reachable_mutual h R _ _ P) as [_ T']. rewrite T, Tb in T'. cbn in T'. congruence.
Qed.

Lemma move_construct_effect h a b h' : reachable h -> legal h (MoveConstruct a b) -> step h (MoveConstruct a b) = Ok h' ->
  partner_of h b <> Some b ->
  partner_of h' a = partner_of h b /\ partner_of h' b = None /\ (forall x, partner_of h' x <> Some b)
  /\ (forall x, x <> a -> x <> b -> partner_of h x <> Some b -> partner_of h' x = partner_of h x)
  /\ mine_of h' a = mine_of h b /\ (forall x, x <> a -> mine_of h' x = mine_of h x).
Proof.
  intros R [La Lb] E Hb. pose proof (reachable_mutual h R) as M. cbn [step] in E.
  destruct (get_alive h b Lb) as [cb Ecb]. unfold get in E. rewrite Ecb in E. cbn [of_option_ub bind] in E.
  assert (Hab : a <> b) by (intros ->; contradiction).
  destruct (fresh_spec h a (mk_cell (tt cb) (uu cb) None None) M La eq_refl) as (M1 & A1 & D1 & C1 & B1 & _ & Ta).
  fold (fresh h a (mk_cell (tt cb) (uu cb) None None)) in E. set (h1 := fresh h a (mk_cell (tt cb) (uu cb) None None)) in *.
  assert (Pba : partner_of h b <> Some a). { intros P. destruct (M _ _ P) as [P' _]. apply La. now apply partner_alive in P'. }
  destruct (move_assign_spec h1 a b M1) as (h2 & E2 & A & B & C & D & M2); [apply A1; auto|apply A1; auto| |].
  { rewrite Ta, B1 by congruence. unfold type_of. now rewrite Ecb. }
  rewrite E2 in E. inversion E; subst h2. clear E E2.
  assert (Na : forall x, partner_of h x <> Some a). { intros x P. destruct (M _ _ P) as [P' _]. apply La. now apply partner_alive in P'. }
  assert (Pa0 : partner_of h a = None). { destruct (partner_of h a) as [y|] eqn:Ey; [|reflexivity]. exfalso. apply La. now apply partner_alive in Ey. }
  assert (U : unpaired_fn h1 a b = partner_of h b).
  { unfold unpaired_fn, p_is. rewrite D1. destruct (Nat.eqb_spec b a); [congruence|]. cbn [orb]. destruct (partner_of h b) as [y|]; [|reflexivity].
    destruct (Nat.eqb_spec y a); congruence. }
  assert (Pb : partner_of h' b = None).
  { rewrite D. unfold assigned_fn. rewrite U. destruct (partner_of h b) as [p|] eqn:Ep.
    - destruct (Nat.eqb_spec b p); [congruence|]. destruct (Nat.eqb_spec b a); [congruence|].
      unfold p_is. rewrite D1, Ep, Nat.eqb_refl, orb_true_r. reflexivity.
    - reflexivity. }
  split; [|split; [|split; [|split; [|split]]]].
  - rewrite D. unfold assigned_fn. rewrite U. destruct (partner_of h b) as [p|] eqn:Ep; [|apply unpaired_self].
    destruct (Nat.eqb_spec a p); [congruence|]. now rewrite Nat.eqb_refl.
  - exact Pb.
  - intros x Px. destruct (M2 _ _ Px). congruence.
  - intros x Ha Hxb Pb'. rewrite D. unfold assigned_fn. rewrite U. destruct (partner_of h b) as [p|] eqn:Ep.
    + destruct (Nat.eqb_spec x p) as [->|]; [exfalso; destruct (M _ _ Ep); congruence|].
      apply Nat.eqb_neq in Ha. rewrite Ha. unfold p_is. rewrite D1. destruct (partner_of h x) as [y|] eqn:Ey; [|reflexivity].
      destruct (Nat.eqb_spec y a) as [->|]; [exfalso; now apply (Na x)|]. cbn [orb].
      destruct (Nat.eqb_spec y p) as [->|]; [|reflexivity]. destruct (M _ _ Ep), (M _ _ Ey). congruence.
    + unfold unpaired_fn, p_is. apply Nat.eqb_neq in Ha. rewrite D1, Ha. cbn [orb].
      destruct (partner_of h x) as [y|] eqn:Ey; [|reflexivity]. destruct (Nat.eqb_spec y a) as [->|]; [exfalso; now apply (Na x)|reflexivity].
  - rewrite C, Nat.eqb_refl. apply C1. congruence.
  - intros x Hx. rewrite C. apply Nat.eqb_neq in Hx. rewrite Hx. apply C1. now apply Nat.eqb_neq.
Qed.

Lemma get_data_ok h a : reachable h -> alive h a ->
  get_data h a = Ok (match partner_of h a with Some p => mine_of h p | None => None end).
Proof.
  intros R Ha. destruct (get_alive h a Ha) as [c Ec]. unfold get_data, get, partner_of. rewrite Ec. cbn.
  destruct (partner c) as [p|] eqn:Ep; [|reflexivity].
  assert (P : partner_of h a = Some p) by (unfold partner_of; now rewrite Ec).
  destruct (reachable_mutual h R _ _ P) as [P' _]. apply partner_alive in P'. destruct (get_alive h p P') as [q Eq].
  unfold mine_of. rewrite Eq. reflexivity.
Qed.
