(** Proofs about bases. *)
From Coq Require Import Reals List Arith Lia Lra FunctionalExtensionality.
From Verif Require Import RSum Basis_Model Basis_Spec.
Local Open Scope R_scope.

Lemma accumulate_S n step a : accumulate (S n) step a = step (accumulate n step a) n.
Proof. unfold accumulate. rewrite seq_S, fold_left_app. reflexivity. Qed.

(** ** Polynomials in Horner form *)
Inductive poly : nat -> (R -> R) -> Prop :=
| poly_0 f : (forall x, f x = 0) -> poly 0 f
| poly_S d a g f : poly d g -> (forall x, f x = a + x * g x) -> poly (S d) f.
Lemma poly_ext d f g : poly d f -> (forall x, f x = g x) -> poly d g.
Proof. intros H E. destruct H as [f Z|d a h f P F]; [apply poly_0; intros; rewrite <- E; apply Z|apply (poly_S d a h); [exact P|intros; rewrite <- E; apply F]]. Qed.
Lemma poly_zero d : poly d (fun _ => 0).
Proof. induction d as [|d IH]; [now apply poly_0|]. apply (poly_S d 0 (fun _ => 0)); [exact IH|intros; ring]. Qed.
Lemma poly_weaken d f : poly d f -> poly (S d) f.
Proof. induction 1 as [f Z|d a g f P IH F]; [apply (poly_S 0 0 (fun _ => 0)); [now apply poly_0|intros; rewrite Z; ring]|now apply (poly_S (S d) a g)]. Qed.
Lemma poly_plus d f g : poly d f -> poly d g -> poly d (fun x => f x + g x).
Proof.
  intros H. revert g. induction H as [f Z|d a f' f P IH F]; intros g G; inversion G as [? Z'|? b g' ? P' F']; subst.
  - apply poly_0. intros. rewrite Z, Z'. ring.
  - apply (poly_S d (a + b) (fun x => f' x + g' x)); [now apply IH|]. intros. rewrite F, F'. ring.
Qed.
Lemma poly_scal d f a : poly d f -> poly d (fun x => a * f x).
Proof. induction 1 as [f Z|d b f' f P IH F]; [apply poly_0; intros; rewrite Z; ring|]. apply (poly_S d (a * b) (fun x => a * f' x)); [exact IH|]. intros. rewrite F. ring. Qed.
Lemma poly_linear d f a b : poly d f -> poly (S d) (fun x => f x * (a * x + b)).
Proof.
  intros P. apply (poly_ext _ (fun x => a * (x * f x) + b * f x)); [|intros; ring]. apply poly_plus; apply poly_scal; [|now apply poly_weaken]. apply (poly_S d 0 f); [exact P|intros; ring].
Qed.
Lemma poly_divide d f r : poly (S d) f -> exists g, poly d g /\ forall x, f x = f r + (x - r) * g x.
Proof.
  revert f. induction d as [|d IH]; intros f H; inversion H as [|d' a g f' P F]; subst.
  - exists (fun _ => 0). split; [apply poly_zero|]. inversion P as [? Z|]; subst. intros x. rewrite !F, !Z. ring.
  - destruct (IH g P) as (q & Q & E). exists (fun x => g r + x * q x). split; [apply (poly_S d (g r) q); [exact Q|reflexivity]|]. intros x. rewrite !F. rewrite (E x). ring.
Qed.
Lemma poly_roots d f node : poly d f -> distinct d node -> (forall i, (i < d)%nat -> f (node i) = 0) -> forall x, f x = 0.
Proof.
  revert f. induction d as [|d IH]; intros f P D Z x; [inversion P; auto|]. destruct (poly_divide d f (node d) P) as (g & G & E). rewrite (Z d) in E by lia.
  rewrite E. rewrite (IH g G); [ring| |].
  - intros i j I J. apply D; lia.
  - intros i I. specialize (Z i ltac:(lia)). rewrite E in Z. rewrite Rplus_0_l in Z. destruct (Rmult_integral _ _ Z) as [N|N]; [|exact N]. exfalso. assert (i = d) by (apply D; lia || lra). lia.
Qed.
Lemma poly_coefficients n c : poly n (polynomial n c).
Proof.
  revert c. induction n as [|n IH]; intros c; [apply poly_0; reflexivity|]. apply (poly_S n (c 0%nat) (polynomial n (fun k => c (S k)))); [apply IH|].
  intros x. unfold polynomial. rewrite <- rsum_scal. rewrite (rsum_ext n _ (fun k => c (S k) * x ^ S k)) by (intros; cbn [pow]; ring).
  clear IH. induction n as [|n IHn]; [cbn [rsum pow]; ring|]. cbn [rsum] in *. rewrite IHn. ring.
Qed.

(** ** Lagrange polynomials *)
Definition factors (n : nat) (node : nat -> R) (j : nat) (skip : nat -> bool) (x : R) : R := accumulate n (fun p m => if skip m then p else p * ((x - node m) / (node j - node m))) 1.
Definition lagrange (n : nat) (node : nat -> R) (j : nat) (x : R) : R := factors n node j (fun m => Nat.eqb j m) x.
Lemma interpolate_lagrange n node sample i j : interpolate n node sample i j = lagrange n node j (sample i).
Proof. reflexivity. Qed.
Lemma factors_S n node j skip x : factors (S n) node j skip x = if skip n then factors n node j skip x else factors n node j skip x * ((x - node n) / (node j - node n)).
Proof. unfold factors. apply accumulate_S. Qed.
Lemma factors_poly n node j skip : poly (S n) (factors n node j skip).
Proof.
  induction n as [|n IH]; [apply (poly_S 0 1 (fun _ => 0)); [apply poly_zero|intros; unfold factors, accumulate; cbn; ring]|]. destruct (skip n) eqn:E.
  - apply (poly_ext _ (factors n node j skip)); [now apply poly_weaken|intros; rewrite factors_S, E; reflexivity].
  - apply (poly_ext _ (fun x => factors n node j skip x * (/ (node j - node n) * x + - node n * / (node j - node n)))); [now apply poly_linear|]. intros x. rewrite factors_S, E. unfold Rdiv. ring.
Qed.
Lemma factors_skip_poly n node j skip k : (k < n)%nat -> skip k = true -> poly n (factors n node j skip).
Proof.
  revert k. induction n as [|n IH]; intros k K E; [lia|]. destruct (Nat.eq_dec k n) as [->|NE].
  - apply (poly_ext _ (factors n node j skip)); [apply factors_poly|intros; rewrite factors_S, E; reflexivity].
  - specialize (IH k ltac:(lia) E). destruct (skip n) eqn:EN.
    + apply (poly_ext _ (factors n node j skip)); [now apply poly_weaken|intros; rewrite factors_S, EN; reflexivity].
    + apply (poly_ext _ (fun x => factors n node j skip x * (/ (node j - node n) * x + - node n * / (node j - node n)))); [now apply poly_linear|]. intros x. rewrite factors_S, EN. unfold Rdiv. ring.
Qed.
Lemma factors_at n node j skip x : (forall m, (m < n)%nat -> skip m = false -> x - node m = node j - node m /\ node j - node m <> 0) -> factors n node j skip x = 1.
Proof.
  induction n as [|n IH]; intros H; [reflexivity|]. rewrite factors_S, IH by (intros; apply H; [lia|assumption]). destruct (skip n) eqn:E; [reflexivity|]. destruct (H n ltac:(lia) E) as [-> NZ]. field. exact NZ.
Qed.
Lemma factors_root n node j skip m : (m < n)%nat -> skip m = false -> factors n node j skip (node m) = 0.
Proof.
  induction n as [|n IH]; intros M E; [lia|]. rewrite factors_S. destruct (Nat.eq_dec m n) as [->|NE]; [rewrite E; unfold Rdiv; ring|]. rewrite IH by (lia || assumption). destruct (skip n); ring.
Qed.
Lemma lagrange_node n node j i : distinct n node -> (j < n)%nat -> (i < n)%nat -> lagrange n node j (node i) = if (j =? i)%nat then 1 else 0.
Proof.
  intros D J I. unfold lagrange. destruct (Nat.eqb_spec j i) as [->|NE].
  - apply factors_at. intros m M E. split; [reflexivity|]. intros Z. apply Nat.eqb_neq in E. apply E. apply D; [assumption|assumption|lra].
  - apply factors_root; [exact I|now apply Nat.eqb_neq].
Qed.
Lemma poly_rsum d n (f : nat -> R -> R) : (forall j, (j < n)%nat -> poly d (f j)) -> poly d (fun x => rsum n (fun j => f j x)).
Proof. induction n as [|n IH]; intros H; cbn [rsum]; [apply poly_zero|]. apply poly_plus; [apply IH; intros; apply H; lia|apply H; lia]. Qed.
Lemma reproduce n node f x : distinct n node -> poly n f -> rsum n (fun j => lagrange n node j x * f (node j)) = f x.
Proof.
  intros D P. enough (Z : forall x, rsum n (fun j => lagrange n node j x * f (node j)) + -1 * f x = 0) by (specialize (Z x); lra). apply (poly_roots n _ node); [|exact D|].
  - apply poly_plus; [|now apply poly_scal]. apply poly_rsum. intros j J. apply (poly_ext _ (fun x => f (node j) * lagrange n node j x)); [|intros; ring]. apply poly_scal. apply (factors_skip_poly n node j _ j J). apply Nat.eqb_refl.
  - intros i I. rewrite (rsum_ext n _ (fun j => if (j =? i)%nat then f (node j) else 0)); [|intros j J; rewrite lagrange_node by assumption; destruct (j =? i)%nat; ring].
    rewrite (rsum_single n i _ I); [rewrite Nat.eqb_refl; ring|]. intros k K NE. apply Nat.eqb_neq in NE. now rewrite NE.
Qed.

(** ** Derivatives *)
Lemma derivable_factor (node : nat -> R) j n x : derivable_pt_lim (fun x => (x - node n) / (node j - node n)) x (1 / (node j - node n)).
Proof.
  replace (1 / (node j - node n)) with ((1 - 0) * / (node j - node n) + (x - node n) * 0) by (unfold Rdiv; ring).
  exact (derivable_pt_lim_mult (fun x => x - node n) (fun _ => / (node j - node n)) x (1 - 0) 0 (derivable_pt_lim_minus id (fun _ => node n) x 1 0 (derivable_pt_lim_id x) (derivable_pt_lim_const (node n) x)) (derivable_pt_lim_const (/ (node j - node n)) x)).
Qed.
Lemma derivable_times f (node : nat -> R) j n x l : derivable_pt_lim f x l -> derivable_pt_lim (mult_fct f (fun x => (x - node n) / (node j - node n))) x (l * ((x - node n) / (node j - node n)) + f x * (1 / (node j - node n))).
Proof. intros L. exact (derivable_pt_lim_mult f (fun x => (x - node n) / (node j - node n)) x l _ L (derivable_factor node j n x)). Qed.
Lemma derivable_factors n node j skip x : exists l, derivable_pt_lim (factors n node j skip) x l.
Proof.
  induction n as [|n [l IH]]; [exists 0; apply (derivable_pt_lim_const 1)|]. destruct (skip n) eqn:E.
  - exists l. replace (factors (S n) node j skip) with (factors n node j skip) by (apply functional_extensionality; intros; rewrite factors_S, E; reflexivity). exact IH.
  - exists (l * ((x - node n) / (node j - node n)) + factors n node j skip x * (1 / (node j - node n))).
    replace (factors (S n) node j skip) with (mult_fct (factors n node j skip) (fun x => (x - node n) / (node j - node n))) by (apply functional_extensionality; intros; rewrite factors_S, E; reflexivity).
    now apply derivable_times.
Qed.
(** at its own node *)
Lemma derivative_own n node j skip : (forall m, (m < n)%nat -> skip m = false -> node j - node m <> 0) ->
  derivable_pt_lim (factors n node j skip) (node j) (accumulate n (fun d m => if skip m then d else d + 1 / (node j - node m)) 0).
Proof.
  induction n as [|n IH]; intros H; [apply (derivable_pt_lim_const 1)|]. specialize (IH ltac:(intros; apply H; [lia|assumption])). rewrite accumulate_S. destruct (skip n) eqn:E.
  - replace (factors (S n) node j skip) with (factors n node j skip) by (apply functional_extensionality; intros; rewrite factors_S, E; reflexivity). exact IH.
  - replace (factors (S n) node j skip) with (mult_fct (factors n node j skip) (fun x => (x - node n) / (node j - node n))) by (apply functional_extensionality; intros; rewrite factors_S, E; reflexivity).
    set (l := accumulate n _ 0) in *. pose proof (H n ltac:(lia) E) as NZ.
    replace (l + 1 / (node j - node n)) with (l * ((node j - node n) / (node j - node n)) + factors n node j skip (node j) * (1 / (node j - node n))).
    + now apply derivable_times.
    + rewrite (factors_at n node j skip (node j)) by (intros; split; [reflexivity|apply H; [lia|assumption]]). field. exact NZ.
Qed.
(** at another node [i]: the factor that vanishes there is replaced by its derivative *)
Lemma derivative_other n node j i skip : (i < n)%nat -> skip i = false ->
  derivable_pt_lim (factors n node j skip) (node i) (accumulate n (fun d m => if skip m then d else if (m =? i)%nat then d / (node j - node m) else d / (node j - node m) * (node i - node m)) 1).
Proof.
  intros I E. set (g := fun d m => if skip m then d else if (m =? i)%nat then d / (node j - node m) else d / (node j - node m) * (node i - node m)).
  assert (BELOW : forall k, (k <= i)%nat -> accumulate k g 1 = factors k node j skip (node i)).
  { induction k as [|k IH]; intros K; [reflexivity|]. rewrite accumulate_S, factors_S, IH by lia. unfold g. destruct (skip k); [reflexivity|]. replace (k =? i)%nat with false by (symmetry; apply Nat.eqb_neq; lia). unfold Rdiv. ring. }
  enough (G : forall k, (i < k)%nat -> derivable_pt_lim (factors k node j skip) (node i) (accumulate k g 1)) by (now apply G).
  induction k as [|k IH]; intros K; [lia|]. destruct (Nat.eq_dec k i) as [->|NE].
  - replace (factors (S i) node j skip) with (mult_fct (factors i node j skip) (fun x => (x - node i) / (node j - node i))) by (apply functional_extensionality; intros; rewrite factors_S, E; reflexivity).
    destruct (derivable_factors i node j skip (node i)) as [l L]. rewrite accumulate_S. unfold g at 1. rewrite E, Nat.eqb_refl, BELOW by lia.
    replace (factors i node j skip (node i) / (node j - node i)) with (l * ((node i - node i) / (node j - node i)) + factors i node j skip (node i) * (1 / (node j - node i))) by (unfold Rdiv; ring).
    now apply derivable_times.
  - specialize (IH ltac:(lia)). rewrite accumulate_S. unfold g at 1. destruct (skip k) eqn:EK.
    + replace (factors (S k) node j skip) with (factors k node j skip) by (apply functional_extensionality; intros; rewrite factors_S, EK; reflexivity). exact IH.
    + replace (k =? i)%nat with false by (symmetry; apply Nat.eqb_neq; lia).
      replace (factors (S k) node j skip) with (mult_fct (factors k node j skip) (fun x => (x - node k) / (node j - node k))) by (apply functional_extensionality; intros; rewrite factors_S, EK; reflexivity).
      replace (accumulate k g 1 / (node j - node k) * (node i - node k)) with (accumulate k g 1 * ((node i - node k) / (node j - node k)) + factors k node j skip (node i) * (1 / (node j - node k))); [now apply derivable_times|].
      rewrite (factors_root k node j skip i) by (lia || assumption). unfold Rdiv. ring.
Qed.
Lemma accumulate_ext n f g a : (forall d m, (m < n)%nat -> f d m = g d m) -> accumulate n f a = accumulate n g a.
Proof. induction n as [|n IH]; intros H; [reflexivity|]. rewrite !accumulate_S, IH by (intros; apply H; lia). apply H. lia. Qed.
Lemma diff_mat_lagrange n node i j : distinct n node -> (i < n)%nat -> (j < n)%nat -> derivable_pt_lim (lagrange n node j) (node i) (diff_mat n node i j).
Proof.
  intros D I J. unfold diff_mat. destruct (Nat.eqb_spec i j) as [->|NE].
  - rewrite (accumulate_ext n _ (fun d m => if (j =? m)%nat then d else d + 1 / (node j - node m))) by (intros; rewrite Nat.eqb_sym; reflexivity). apply derivative_own. intros m M E Z. apply Nat.eqb_neq in E. apply E. apply D; [assumption|assumption|lra].
  - rewrite (accumulate_ext n _ (fun d m => if (j =? m)%nat then d else if (m =? i)%nat then d / (node j - node m) else d / (node j - node m) * (node i - node m))) by (intros; rewrite (Nat.eqb_sym m j); reflexivity).
    apply derivative_other; [exact I|]. apply Nat.eqb_neq. auto.
Qed.
Lemma derivable_rsum n (f : nat -> R -> R) (l : nat -> R) x : (forall j, (j < n)%nat -> derivable_pt_lim (f j) x (l j)) -> derivable_pt_lim (fun y => rsum n (fun j => f j y)) x (rsum n l).
Proof. induction n as [|n IH]; intros H; cbn [rsum]; [apply (derivable_pt_lim_const 0)|]. apply (derivable_pt_lim_plus (fun y => rsum n (fun j => f j y)) (f n)); [apply IH; intros; apply H; lia|apply H; lia]. Qed.
Lemma differentiate n node f i : distinct n node -> poly n f -> (i < n)%nat -> derivable_pt_lim f (node i) (rsum n (fun j => diff_mat n node i j * f (node j))).
Proof.
  intros D P I. replace f with (fun y => rsum n (fun j => f (node j) * lagrange n node j y)) at 1.
  - rewrite (rsum_ext n _ (fun j => f (node j) * diff_mat n node i j)) by (intros; ring). apply derivable_rsum. intros j J. apply (derivable_pt_lim_scal (lagrange n node j)). now apply diff_mat_lagrange.
  - apply functional_extensionality. intros y. rewrite <- (reproduce n node f y D P). apply rsum_ext. intros. ring.
Qed.
Lemma equidistant_distinct n : distinct n (equidistant_node n).
Proof.
  intros i j I J E. unfold equidistant_node in E. destruct (Nat.eq_dec n 1) as [->|NE]; [lia|]. assert (P : 1 < INR n) by (apply (lt_INR 1); lia). apply INR_eq. apply (Rmult_eq_reg_r (/ (INR n - 1))); [exact E|]. apply Rinv_neq_0_compat. lra.
Qed.
