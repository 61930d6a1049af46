(** Sums of lists in loops, and tensor-product rules. *)
From Coq Require Import Reals List Arith Lia Lra.
From Coquelicot Require Import Coquelicot.
From Verif Require Import Outcome ListUtil Loop RSum Tensor_Model Tensor_Spec Tensor_Proofs Basis_Spec Basis_Proofs Quad_Spec Quad_Proofs Spatial_Model Spatial_Spec Spatial_Proofs5 Integral_Model Integral_Spec.
Import ListNotations.
Local Open Scope R_scope.

(** ** loops that add to the entries of a list *)
Definition adds (n : nat) (f : list R -> outcome (list R)) (g : nat -> R) : Prop :=
  forall s, length s = n -> exists s', f s = Ok s' /\ length s' = n /\ forall v, (v < n)%nat -> nth v s' 0 = nth v s 0 + g v.
Lemma adds_fold {X} n (f : X -> list R -> outcome (list R)) (g : X -> nat -> R) l : (forall x, In x l -> adds n (f x) (g x)) -> adds n (ofold f l) (fun v => lsum (fun x => g x v) l).
Proof.
  induction l as [|x l IH]; intros H s L; cbn [ofold].
  - exists s. split; [reflexivity|]. split; [exact L|]. intros v V. rewrite lsum_nil. lra.
  - destruct (H x ltac:(now left) s L) as (s1 & E1 & L1 & N1). destruct (IH ltac:(intros y Y; apply H; now right) s1 L1) as (s2 & E2 & L2 & N2). rewrite E1. cbn [bind]. exists s2. split; [exact E2|]. split; [exact L2|].
    intros v V. rewrite N2, N1, lsum_cons by exact V. ring.
Qed.
Lemma adds_ext n f g g' : adds n f g -> (forall v, (v < n)%nat -> g v = g' v) -> adds n f g'.
Proof. intros A E s L. destruct (A s L) as (s' & F & L' & N). exists s'. split; [exact F|]. split; [exact L'|]. intros v V. rewrite N, E by exact V. reflexivity. Qed.
Lemma add_at_adds n i x : (i < n)%nat -> adds n (fun s => add_at s i x) (fun v => if (v =? i)%nat then x else 0).
Proof.
  intros I s L. unfold add_at, aget, aset. destruct (nth_error s i) as [y|] eqn:E; [|apply nth_error_None in E; lia]. cbn [of_option_ub bind]. replace (i <? length s)%nat with true by (symmetry; apply Nat.ltb_lt; lia).
  eexists. split; [reflexivity|]. split; [now rewrite set_nth_length|]. intros v V. destruct (Nat.eqb_spec v i) as [->|NE].
  - rewrite nth_set_nth_eq by lia. rewrite (nth_error_nth s i 0 E). reflexivity.
  - rewrite Rplus_0_r. apply nth_set_nth_neq. lia.
Qed.
(** the loop over the variables *)
Lemma vars_adds n vals (h : R -> R) : length vals = n -> adds n (ofold (fun i_var integral => let! x := aget vals i_var in add_at integral i_var (h x)) (seq 0 n)) (fun v => h (nth v vals 0)).
Proof.
  intros L. eapply adds_ext; [apply (adds_fold n _ (fun i v => if (v =? i)%nat then h (nth i vals 0) else 0))|].
  - intros i I. apply in_seq in I. intros s S. unfold aget at 1. rewrite (nth_error_nth' vals 0) by lia. cbn [of_option_ub bind]. apply add_at_adds; [lia|exact S].
  - intros v V. cbv beta. rewrite lsum_seq. rewrite (rsum_single n v); [now rewrite Nat.eqb_refl|exact V|]. intros i I NE. replace (v =? i)%nat with false by (symmetry; apply Nat.eqb_neq; lia). reflexivity.
Qed.
Lemma adds_start n f g : adds n f g -> exists r, f (repeat 0 n) = Ok r /\ length r = n /\ forall v, (v < n)%nat -> nth v r 0 = g v.
Proof.
  intros A. destruct (A (repeat 0 n) (repeat_length 0 n)) as (r & E & L & N). exists r. split; [exact E|]. split; [exact L|]. intros v V. rewrite N by exact V. rewrite nth_repeat. ring.
Qed.

(** ** tensor-product rules *)
Lemma poly_of_coeffs d c : poly d (polynomial d c). Proof. apply poly_coefficients. Qed.
Lemma RInt_poly n node w d f : integrates n node w d -> poly d f -> rsum n (fun i => w i * f (node i)) = RInt f 0 1.
Proof.
  intros I P. destruct (poly_antiderivative d f P) as (A & PA & DA & _). rewrite (quadrature n node w d f A I P DA). symmetry. apply is_RInt_unique. change (A 1 - A 0) with (minus (A 1) (A 0)). apply (is_RInt_derive A f).
  - intros x _. apply is_derive_Reals, DA.
  - intros x _. destruct (poly_has_deriv d f P) as (f' & Df). apply (ex_derive_continuous f x). exists (f' x). apply is_derive_Reals, Df.
Qed.
Lemma outer_S rs w n i q : (0 < rs)%nat -> (i < rs)%nat -> (q < rs ^ n)%nat -> outer_power rs w (S n) (i * rs ^ n + q) = w i * outer_power rs w n q.
Proof.
  intros RS I Q. unfold outer_power. rewrite rprod_shift. assert (B : (i * rs ^ n + q < rs ^ S n)%nat) by (cbn [Nat.pow]; nia). rewrite digit_0 by assumption. rewrite Nat.div_add_l, Nat.div_small, Nat.add_0_r by (try apply Nat.pow_nonzero; lia). f_equal.
  apply rprod_ext. intros k K. rewrite digit_S by assumption. rewrite Nat.add_comm, Nat.mod_add, Nat.mod_small by (try apply Nat.pow_nonzero; lia). reflexivity.
Qed.
Definition front (t : R) (y : nat -> R) (l : nat) : R := match l with O => t | S l => y l end.
Lemma point_S rs node n i q l : (0 < rs)%nat -> (i < rs)%nat -> (q < rs ^ n)%nat -> (l < S n)%nat -> node (digit rs (S n) l (i * rs ^ n + q)) = front (node i) (fun l => node (digit rs n l q)) l.
Proof.
  intros RS I Q L. assert (B : (i * rs ^ n + q < rs ^ S n)%nat) by (cbn [Nat.pow]; nia). destruct l as [|l]; cbn [front].
  - rewrite digit_0 by assumption. rewrite Nat.div_add_l, Nat.div_small, Nat.add_0_r by (try apply Nat.pow_nonzero; lia). reflexivity.
  - rewrite digit_S by (assumption || lia). rewrite Nat.add_comm, Nat.mod_add, Nat.mod_small by (try apply Nat.pow_nonzero; lia). reflexivity.
Qed.
Lemma poly_front n d F t : poly_in_each (S n) d F -> poly_in_each n d (fun y => F (front t y)).
Proof.
  intros (E & P). split.
  - intros y y' H. apply E. intros [|l] L; [reflexivity|]. cbn. apply H. lia.
  - intros y l L. destruct (P (front t y) (S l) ltac:(lia)) as (c & C). exists c. intros x. rewrite <- C. apply E. intros [|k] K; [reflexivity|]. reflexivity.
Qed.
Lemma cube_ext n F G : (forall y, F y = G y) -> cube_integral n F = cube_integral n G.
Proof. revert F G. induction n as [|n IH]; intros F G E; cbn [cube_integral]; [apply E|]. apply RInt_ext. intros t _. apply IH. intros y. apply E. Qed.
Lemma rule_cube rs node w d : (0 < rs)%nat -> integrates rs node w d -> forall n F, poly_in_each n d F ->
  rsum (rs ^ n) (fun q => outer_power rs w n q * F (fun l => node (digit rs n l q))) = cube_integral n F.
Proof.
  intros RS I. induction n as [|n IH]; intros F P.
  - cbn [Nat.pow rsum cube_integral]. unfold outer_power. cbn [rprod]. rewrite Rplus_0_l, Rmult_1_l. apply P. intros l L. lia.
  - cbn [Nat.pow cube_integral]. rewrite rsum_mult. set (G := fun t => rsum (rs ^ n) (fun q => outer_power rs w n q * F (front t (fun l => node (digit rs n l q))))).
    transitivity (rsum rs (fun i => w i * G (node i))).
    + apply rsum_ext. intros i Hi. unfold G. rewrite <- rsum_scal. apply rsum_ext. intros q Q. rewrite outer_S by assumption. rewrite Rmult_assoc. do 2 f_equal. apply P. intros l L. now apply point_S.
    + rewrite (RInt_poly rs node w d G I).
      * apply RInt_ext. intros t _. unfold G. apply (IH (fun y => F (front t y))). now apply poly_front.
      * unfold G. apply (poly_rsum d (rs ^ n) (fun q t => outer_power rs w n q * F (front t (fun l => node (digit rs n l q))))). intros q Q. apply poly_scal. destruct P as (E & P). destruct (P (front 0 (fun l => node (digit rs n l q))) 0%nat ltac:(lia)) as (c & C).
        apply (poly_ext d (polynomial d c)); [apply poly_of_coeffs|]. intros x. rewrite <- C. apply E. intros [|k] K; reflexivity.
Qed.
