(** Proofs about quadrature bases: interpolation, derivative, projection. *)
From Coq Require Import Reals List Arith Lia Lra FunctionalExtensionality.
From Verif Require Import Outcome RSum Basis_Model Basis_Spec Basis_Proofs Quad_Model Quad_Spec.
Import ListNotations.
Local Open Scope R_scope.

(** ** The formulas of Basis.py are those of Basis.cpp and Equidistant.cpp *)
Lemma accumulate_pop n node i pos a : (i < n)%nat ->
  fold_left (fun r x => r * ((pos - x) / (node i - x))) (pop i (map node (seq 0 n))) a = accumulate n (fun p m => if (i =? m)%nat then p else p * ((pos - node m) / (node i - node m))) a.
Proof.
  intros I. unfold pop, accumulate. replace n with (i + S (n - S i))%nat by lia. rewrite seq_app, map_app. cbn [seq map]. rewrite Nat.add_0_l.
  rewrite firstn_app, skipn_app. rewrite map_length, seq_length.
  rewrite firstn_all2 by (rewrite map_length, seq_length; lia). rewrite skipn_all2 by (rewrite map_length, seq_length; lia).
  replace (i - i)%nat with 0%nat by lia. replace (S i - i)%nat with 1%nat by lia. cbn [firstn skipn app]. rewrite app_nil_r, !fold_left_app. cbn [fold_left]. rewrite Nat.eqb_refl.
  assert (G : forall l b, (forall m, In m l -> m <> i) -> fold_left (fun r x => r * ((pos - x) / (node i - x))) (map node l) b = fold_left (fun p m => if (i =? m)%nat then p else p * ((pos - node m) / (node i - node m))) l b).
  { induction l as [|m l IH]; intros b H; [reflexivity|]. cbn [map fold_left]. destruct (Nat.eqb_spec i m) as [->|NE]; [exfalso; apply (H m); [now left|reflexivity]|]. apply IH. intros; apply H; now right. }
  rewrite !G; [reflexivity| |]; intros m M; apply in_seq in M; lia.
Qed.
Lemma py_interpolate_eq n node i pos : (i < n)%nat -> py_interpolate n node i pos = lagrange n node i pos.
Proof.
  intros I. unfold py_interpolate. rewrite (nth_indep _ 0 (node 0%nat)) by (now rewrite map_length, seq_length). rewrite (map_nth node), seq_nth by exact I. rewrite Nat.add_0_l. now rewrite accumulate_pop.
Qed.
Lemma py_derivative_eq n node i j : py_derivative n node i j = diff_mat n node i j.
Proof.
  unfold py_derivative, diff_mat. destruct (Nat.eqb_spec i j) as [->|NE].
  - apply (accumulate_ext n). intros d m _. destruct (m =? j)%nat; reflexivity.
  - apply (accumulate_ext n). intros d m _. destruct (m =? j)%nat; [reflexivity|]. cbn zeta. destruct (m =? i)%nat; reflexivity.
Qed.

(** ** Polynomials *)
Lemma poly_weaken_le d e f : (d <= e)%nat -> poly d f -> poly e f.
Proof. intros L. induction L; [auto|intros; apply poly_weaken; auto]. Qed.
Lemma poly_opp d f : poly d f -> poly d (fun x => - f x).
Proof. intros P. apply (poly_ext _ (fun x => -1 * f x)); [now apply poly_scal|intros; ring]. Qed.
Lemma poly_minus d f g : poly d f -> poly d g -> poly d (fun x => f x - g x).
Proof. intros P Q. apply (poly_ext _ (fun x => f x + - g x)); [apply poly_plus; [exact P|now apply poly_opp]|intros; ring]. Qed.
Lemma poly_const d a : poly (S d) (fun _ => a).
Proof. apply (poly_S d a (fun _ => 0)); [apply poly_zero|intros; ring]. Qed.
Lemma poly_mult a f : poly a f -> forall b g, poly (S b) g -> poly (a + b) (fun x => f x * g x).
Proof.
  induction 1 as [f Z|d c f' f P IH F]; intros b g G.
  - apply (poly_ext _ (fun _ => 0)); [apply poly_zero|]. intros. rewrite Z. ring.
  - apply (poly_ext _ (fun x => c * g x + x * (f' x * g x))); [|intros; rewrite F; ring]. apply poly_plus.
    + apply poly_scal. apply (poly_weaken_le (S b)); [lia|exact G].
    + apply (poly_S (d + b) 0 (fun x => f' x * g x)); [now apply IH|intros; ring].
Qed.
Lemma poly_affine d f a b : poly d f -> poly d (fun x => f (a * x + b)).
Proof.
  induction 1 as [f Z|d c g f P IH F]; [apply poly_0; intros; apply Z|].
  apply (poly_ext _ (fun x => c + g (a * x + b) * (a * x + b))); [|intros; rewrite F; ring]. apply poly_plus; [apply poly_const|]. now apply poly_linear.
Qed.
Lemma poly_is_polynomial d f : poly d f -> exists c, forall x, f x = polynomial d c x.
Proof.
  induction 1 as [f Z|d a g f P (c & C) F]; [exists (fun _ => 0); exact Z|]. exists (fun k => match k with O => a | S k => c k end). intros x. rewrite F, C. unfold polynomial. rewrite rsum_shift. cbn [pow]. rewrite <- rsum_scal. rewrite (rsum_ext d _ (fun i => c i * (x * x ^ i))) by (intros; ring). ring.
Qed.
Lemma lagrange_poly n node j : (j < n)%nat -> poly n (lagrange n node j).
Proof. intros J. apply (factors_skip_poly n node j _ j J). apply Nat.eqb_refl. Qed.

(** ** Derivatives *)
Definition deriv (f f' : R -> R) : Prop := forall x, derivable_pt_lim f x (f' x).
Lemma deriv_ext f g f' g' : deriv f f' -> (forall x, f x = g x) -> (forall x, f' x = g' x) -> deriv g g'.
Proof. intros D E E' x. rewrite <- E'. replace g with f by (now apply functional_extensionality). apply D. Qed.
Lemma deriv_const a : deriv (fun _ => a) (fun _ => 0).
Proof. intros x. apply (derivable_pt_lim_const a). Qed.
Lemma deriv_id : deriv (fun x => x) (fun _ => 1).
Proof. intros x. apply (derivable_pt_lim_id x). Qed.
Lemma deriv_plus f g f' g' : deriv f f' -> deriv g g' -> deriv (fun x => f x + g x) (fun x => f' x + g' x).
Proof. intros D E x. exact (derivable_pt_lim_plus f g x _ _ (D x) (E x)). Qed.
Lemma deriv_minus f g f' g' : deriv f f' -> deriv g g' -> deriv (fun x => f x - g x) (fun x => f' x - g' x).
Proof. intros D E x. exact (derivable_pt_lim_minus f g x _ _ (D x) (E x)). Qed.
Lemma deriv_mult f g f' g' : deriv f f' -> deriv g g' -> deriv (fun x => f x * g x) (fun x => f' x * g x + f x * g' x).
Proof. intros D E x. exact (derivable_pt_lim_mult f g x _ _ (D x) (E x)). Qed.
Lemma deriv_scal a f f' : deriv f f' -> deriv (fun x => a * f x) (fun x => a * f' x).
Proof. intros D x. exact (derivable_pt_lim_scal f a x _ (D x)). Qed.
Lemma deriv_affine f f' a b : deriv f f' -> deriv (fun x => f (a * x + b)) (fun x => a * f' (a * x + b)).
Proof.
  intros D. assert (A : deriv (fun x => a * x + b) (fun _ => a)). { apply (deriv_ext (fun x => a * x + b) _ (fun _ => a * 1 + 0)); [|reflexivity|intros; ring]. apply deriv_plus; [apply deriv_scal, deriv_id|apply deriv_const]. }
  intros x. replace (a * f' (a * x + b)) with (f' (a * x + b) * a) by ring. exact (derivable_pt_lim_comp (fun x => a * x + b) f x a _ (A x) (D (a * x + b))).
Qed.
Lemma deriv_unique f g h : deriv f h -> deriv g h -> forall x y, f x - f y = g x - g y.
Proof.
  intros D E x y. assert (Z : deriv (fun x => f x - g x) (fun _ => 0)). { apply (deriv_ext (fun x => f x - g x) _ (fun x => h x - h x)); [now apply deriv_minus|reflexivity|intros; ring]. }
  set (p := fun x => f x - g x) in *. assert (PR : derivable p) by (intros z; exists 0; apply Z).
  pose proof (null_derivative_1 p PR) as C. cut (p x = p y); [unfold p; lra|]. apply C. intros z. apply derive_pt_eq_0. apply Z.
Qed.
Lemma poly_antiderivative d f : poly d f -> exists F, poly (S d) F /\ deriv F f /\ F 0 = 0.
Proof.
  intros P. destruct (poly_is_polynomial d f P) as [c C].
  assert (G : exists F, poly (S d) F /\ deriv F (polynomial d c) /\ F 0 = 0).
  { exists (fun x => rsum d (fun k => c k / (INR k + 1) * x ^ S k)). split; [|split].
    - apply (poly_ext _ (fun x => polynomial (S d) (fun k => match k with O => 0 | S k => c k / (INR k + 1) end) x)); [apply poly_coefficients|]. intros x. unfold polynomial. rewrite rsum_shift. rewrite (Rmult_0_l (x ^ 0)). ring.
    - intros x. unfold polynomial. apply (derivable_rsum d (fun k y => c k / (INR k + 1) * y ^ S k)). intros k _.
      replace (c k * x ^ k) with (c k / (INR k + 1) * (INR (S k) * x ^ pred (S k))); [exact (derivable_pt_lim_scal (fun y => y ^ S k) _ x _ (derivable_pt_lim_pow x (S k)))|]. cbn [pred]. rewrite S_INR. field. pose proof (pos_INR k). lra.
    - rewrite (rsum_ext d _ (fun _ => 0)) by (intros; cbn [pow]; ring). apply rsum_0. }
  destruct G as (F & ? & D & ?). exists F. split; [assumption|]. split; [|assumption]. apply (deriv_ext F _ (polynomial d c)); auto.
Qed.
Lemma poly_has_deriv n g : poly n g -> exists g', deriv g g'.
Proof.
  induction 1 as [f Z|n a g f P (g' & G) F]; [exists (fun _ => 0); apply (deriv_ext (fun _ => 0) _ (fun _ => 0)); [apply deriv_const|auto|auto]|].
  exists (fun x => 0 + (1 * g x + x * g' x)). apply (deriv_ext (fun x => a + x * g x) _ (fun x => 0 + (1 * g x + x * g' x))); [|intros; rewrite F; reflexivity|reflexivity]. apply deriv_plus; [apply deriv_const|]. apply deriv_mult; [apply deriv_id|exact G].
Qed.
Lemma deriv_eq f g h : deriv f g -> deriv f h -> forall x, g x = h x.
Proof. intros D E x. apply (uniqueness_limite f x); [apply D|apply E]. Qed.
Lemma poly_deriv d f f' : poly (S d) f -> deriv f f' -> poly d f'.
Proof.
  revert f f'. induction d as [|d IH]; intros f f' P D; inversion P as [|? a g ? Q F]; subst.
  - apply poly_0. inversion Q as [? Z|]; subst. apply (deriv_eq f f' (fun _ => 0) D). apply (deriv_ext (fun _ => a) f (fun _ => 0)); [apply deriv_const| |reflexivity]. intros y. rewrite F, Z. ring.
  - destruct (poly_has_deriv _ g Q) as [g' G]. specialize (IH g g' Q G). apply (poly_ext _ (fun x => g x + x * g' x)).
    + apply poly_plus; [exact Q|]. apply (poly_S d 0 g'); [exact IH|intros; ring].
    + apply (deriv_eq f); [|exact D]. apply (deriv_ext (fun x => a + x * g x) f (fun x => 0 + (1 * g x + x * g' x))); [|intros; rewrite F; reflexivity|intros; ring]. apply deriv_plus; [apply deriv_const|]. apply deriv_mult; [apply deriv_id|exact G].
Qed.

(** ** The quadrature *)
Lemma quadrature n node weight d f F : integrates n node weight d -> poly d f -> deriv F f -> rsum n (fun i => weight i * f (node i)) = F 1 - F 0.
Proof.
  intros Q P D. destruct (poly_is_polynomial d f P) as [c C]. rewrite (rsum_ext n _ (fun i => weight i * polynomial d c (node i))) by (intros; now rewrite C). rewrite Q. unfold integral.
  set (A := fun x => rsum d (fun k => c k / (INR k + 1) * x ^ S k)).
  assert (DA : deriv A f). { apply (deriv_ext A _ (polynomial d c)); [|reflexivity|intros; now rewrite C]. intros x. unfold polynomial. apply (derivable_rsum d (fun k y => c k / (INR k + 1) * y ^ S k)). intros k _.
      replace (c k * x ^ k) with (c k / (INR k + 1) * (INR (S k) * x ^ pred (S k))); [exact (derivable_pt_lim_scal (fun y => y ^ S k) _ x _ (derivable_pt_lim_pow x (S k)))|]. cbn [pred]. rewrite S_INR. field. pose proof (pos_INR k). lra. }
  rewrite (deriv_unique F A f D DA). unfold A. rewrite (rsum_ext d (fun k => c k / (INR k + 1) * 0 ^ S k) (fun _ => 0)) by (intros; cbn [pow]; ring). rewrite rsum_0, Rminus_0_r. apply rsum_ext. intros. rewrite pow1. ring.
Qed.
Lemma integrates_le n node weight d e : (e <= d)%nat -> integrates n node weight d -> integrates n node weight e.
Proof.
  intros L Q c. pose proof (Q (fun k => if (k <? e)%nat then c k else 0)) as H. unfold polynomial, integral in *.
  assert (G : forall h : nat -> R, rsum d (fun k => (if (k <? e)%nat then c k else 0) * h k) = rsum e (fun k => c k * h k)).
  { intros h. replace d with (e + (d - e))%nat by lia. rewrite rsum_app. rewrite (rsum_ext (d - e) _ (fun _ => 0)); [|intros i I; replace (e + i <? e)%nat with false by (symmetry; apply Nat.ltb_ge; lia); ring]. rewrite rsum_0, Rplus_0_r. apply rsum_ext. intros i I. replace (i <? e)%nat with true by (symmetry; now apply Nat.ltb_lt). reflexivity. }
  unfold Rdiv in *. rewrite G in H. rewrite <- H. apply rsum_ext. intros i I. now rewrite G.
Qed.
Lemma lagrange_sum n node x : (0 < n)%nat -> distinct n node -> rsum n (fun j => lagrange n node j x) = 1.
Proof.
  intros N D. rewrite (rsum_ext n _ (fun j => lagrange n node j x * (fun _ => 1) (node j))) by (intros; ring). apply (reproduce n node (fun _ => 1) x D). destruct n; [lia|]. apply poly_const.
Qed.

(** ** Derivative.hpp *)
Lemma two_sides f : rsum 2 f = f 0%nat + f 1%nat.
Proof. cbn [rsum]. ring. Qed.
(** summation by parts of the differentiation matrix *)
Lemma diff_sum n node weight j : (j < n)%nat -> distinct n node -> integrates n node weight (n - 1) ->
  rsum n (fun i => weight i * diff_mat n node i j) = lagrange n node j 1 - lagrange n node j 0.
Proof.
  intros J D Q. destruct n as [|n]; [lia|]. replace (S n - 1)%nat with n in Q by lia. pose proof (lagrange_poly (S n) node j J) as P.
  destruct (poly_has_deriv _ _ P) as [L' H]. rewrite <- (quadrature (S n) node weight n L' _ Q (poly_deriv n _ _ P H) H). apply rsum_ext. intros i I. f_equal. apply (uniqueness_limite (lagrange (S n) node j) (node i)); [now apply diff_mat_lagrange|apply H].
Qed.
(** the two facts about the matrices that make a derivative conservative *)
Definition by_parts (n : nat) (diff boundary : nat -> nat -> R) (weight : nat -> R) : Prop :=
  (forall i, (i < n)%nat -> weight i <> 0) /\
  (forall j, (j < n)%nat -> rsum n (fun i => weight i * diff i j) = boundary 1%nat j - boundary 0%nat j) /\
  (forall side, (side < 2)%nat -> rsum n (boundary side) = 1).
Lemma rsum_mat_vec n m (w : nat -> R) a v : rsum n (fun i => w i * mat_vec m a v i) = rsum m (fun j => rsum n (fun i => w i * a i j) * v j).
Proof.
  unfold mat_vec. rewrite (rsum_ext n _ (fun i => rsum m (fun j => w i * a i j * v j))); [|intros; rewrite <- rsum_scal; apply rsum_ext; intros; ring]. rewrite rsum_swap. apply rsum_ext. intros. now rewrite rsum_scal_r.
Qed.
Lemma lift_sum n diff boundary weight side : by_parts n diff boundary weight -> (side < 2)%nat -> rsum n (fun i => weight i * lift weight boundary i side) = if (side =? 0)%nat then -1 else 1.
Proof.
  intros (NZ & _ & O) L. rewrite (rsum_ext n _ (fun i => boundary side i * (if (side =? 0)%nat then -1 else 1))); [|intros i I; unfold lift; field; now apply NZ]. rewrite rsum_scal_r, (O side L). ring.
Qed.
Lemma boundary_term_sum n diff boundary weight b : by_parts n diff boundary weight -> rsum n (fun i => weight i * boundary_term boundary weight b i) = b 1%nat - b 0%nat.
Proof.
  intros H. unfold boundary_term. rewrite rsum_mat_vec, two_sides, !(lift_sum n diff boundary weight) by (assumption || lia). cbn [Nat.eqb]. ring.
Qed.
Lemma diff_total n diff boundary weight q : by_parts n diff boundary weight -> rsum n (fun i => weight i * mat_vec n diff q i) = mat_vec n boundary q 1 - mat_vec n boundary q 0.
Proof.
  intros (_ & S & _). rewrite rsum_mat_vec. unfold mat_vec. rewrite <- rsum_minus. apply rsum_ext. intros j J. rewrite (S j J). ring.
Qed.
Lemma derivative_total n diff boundary weight q b : by_parts n diff boundary weight -> rsum n (fun i => weight i * derivative n diff boundary weight q b i) = b 1%nat - b 0%nat.
Proof.
  intros H. unfold derivative. rewrite (rsum_ext n _ (fun i => weight i * mat_vec n diff q i + weight i * boundary_term boundary weight (fun side => b side - mat_vec n boundary q side) i)) by (intros; unfold boundary_term; ring).
  rewrite rsum_plus, (boundary_term_sum n diff) by exact H. rewrite (diff_total n diff boundary weight q H). ring.
Qed.
Lemma interior_total n diff boundary weight q : by_parts n diff boundary weight -> rsum n (fun i => weight i * fst (interior_term n diff boundary weight q) i) = 0.
Proof.
  intros H. unfold interior_term. cbn [fst]. rewrite (rsum_ext n _ (fun i => weight i * mat_vec n diff q i - weight i * boundary_term boundary weight (mat_vec n boundary q) i)) by (intros; unfold boundary_term; ring).
  rewrite rsum_minus, (boundary_term_sum n diff) by exact H. rewrite (diff_total n diff boundary weight q H). ring.
Qed.
Lemma by_parts_quad n node weight : (0 < n)%nat -> rule n node weight -> integrates n node weight (n - 1) -> by_parts n (py_derivative n node) (py_boundary n node) weight.
Proof.
  intros N [D W] Q. split; [|split].
  - intros i I. specialize (W i I). lra.
  - intros j J. rewrite (rsum_ext n _ (fun i => weight i * diff_mat n node i j)) by (intros; now rewrite py_derivative_eq). rewrite diff_sum by assumption. unfold py_boundary. rewrite !py_interpolate_eq by exact J. cbn [INR]. ring.
  - intros side _. unfold py_boundary. rewrite (rsum_ext n _ (fun i => lagrange n node i (INR side))) by (intros; now apply py_interpolate_eq). now apply lagrange_sum.
Qed.
(** the polynomial with given values at the nodes *)
Definition nodal (n : nat) (node v : nat -> R) (x : R) : R := rsum n (fun j => v j * lagrange n node j x).
Lemma nodal_poly n node v : poly n (nodal n node v).
Proof. unfold nodal. apply (poly_rsum n n (fun j x => v j * lagrange n node j x)). intros j J. apply poly_scal. now apply lagrange_poly. Qed.
Lemma nodal_node n node v i : distinct n node -> (i < n)%nat -> nodal n node v (node i) = v i.
Proof.
  intros D I. unfold nodal. rewrite (rsum_single n i); [rewrite lagrange_node, Nat.eqb_refl by assumption; ring|exact I|]. intros j J NE. rewrite lagrange_node by assumption. apply Nat.eqb_neq in NE. rewrite NE. ring.
Qed.
Lemma nodal_bound n node v side : mat_vec n (py_boundary n node) v side = nodal n node v (INR side).
Proof. unfold mat_vec, nodal, py_boundary. apply rsum_ext. intros j J. rewrite py_interpolate_eq by exact J. ring. Qed.
Lemma nodal_deriv n node v i : distinct n node -> (i < n)%nat -> derivable_pt_lim (nodal n node v) (node i) (mat_vec n (py_derivative n node) v i).
Proof.
  intros D I. pose proof (differentiate n node (nodal n node v) i D (nodal_poly n node v) I) as H. replace (mat_vec n (py_derivative n node) v i) with (rsum n (fun j => diff_mat n node i j * nodal n node v (node j))); [exact H|].
  apply rsum_ext. intros j J. rewrite nodal_node by assumption. now rewrite py_derivative_eq.
Qed.
Lemma summation_by_parts n node weight u v : (0 < n)%nat -> distinct n node -> integrates n node weight (2 * n - 2) ->
  inner n weight u (mat_vec n (py_derivative n node) v) + inner n weight (mat_vec n (py_derivative n node) u) v = nodal n node u 1 * nodal n node v 1 - nodal n node u 0 * nodal n node v 0.
Proof.
  intros N D Q. destruct n as [|n]; [lia|]. set (U := nodal (S n) node u). set (V := nodal (S n) node v).
  pose proof (nodal_poly (S n) node u : poly (S n) U) as PU. pose proof (nodal_poly (S n) node v : poly (S n) V) as PV. destruct (poly_has_deriv _ _ PU) as [U' DU]. destruct (poly_has_deriv _ _ PV) as [V' DV].
  pose proof (poly_mult _ _ PU n V PV) as P. pose proof (deriv_mult U V U' V' DU DV) as DP. pose proof (poly_deriv _ _ _ P DP) as PD. replace (2 * S n - 2)%nat with (n + n)%nat in Q by lia.
  rewrite <- (quadrature (S n) node weight _ _ _ Q PD DP). unfold inner. rewrite <- rsum_plus. apply rsum_ext. intros i I.
  rewrite <- (uniqueness_limite U (node i) _ _ (nodal_deriv (S n) node u i D I) (DU (node i))). rewrite <- (uniqueness_limite V (node i) _ _ (nodal_deriv (S n) node v i D I) (DV (node i))).
  unfold U, V. rewrite !nodal_node by assumption. ring.
Qed.
Lemma inner_sym n w u v : inner n w u v = inner n w v u.
Proof. unfold inner. apply rsum_ext. intros. ring. Qed.

(** ** Halves *)
Lemma halves n node weight d f : integrates n node weight d -> poly d f ->
  rsum 2 (fun half => rsum n (fun i => weight i / 2 * f (half_point node half i))) = rsum n (fun i => weight i * f (node i)).
Proof.
  intros Q P. destruct (poly_antiderivative d f P) as (F & _ & D & _). rewrite (quadrature n node weight d f F Q P D).
  assert (H : forall half, rsum n (fun i => weight i / 2 * f (half_point node half i)) = F (1 / 2 + INR half / 2) - F (INR half / 2)).
  { intros half. pose proof (poly_affine d f (1 / 2) (INR half / 2) P) as PA. assert (DA : deriv (fun x => 2 * F (1 / 2 * x + INR half / 2)) (fun x => f (1 / 2 * x + INR half / 2))).
    { apply (deriv_ext (fun x => 2 * F (1 / 2 * x + INR half / 2)) _ (fun x => 2 * (1 / 2 * f (1 / 2 * x + INR half / 2)))); [|reflexivity|intros; field]. apply deriv_scal. now apply deriv_affine. }
    pose proof (quadrature n node weight d _ _ Q PA DA) as E. cbn beta in E. rewrite Rmult_1_r, Rmult_0_r, Rplus_0_l in E.
    rewrite (rsum_ext n _ (fun i => / 2 * (weight i * f (1 / 2 * node i + INR half / 2)))); [|intros; unfold half_point; replace ((node i + INR half) / 2) with (1 / 2 * node i + INR half / 2) by field; field]. rewrite rsum_scal, E. field. }
  rewrite two_sides, !H. cbn [INR]. replace (1 / 2 + 0 / 2) with (1 / 2) by field. replace (1 / 2 + 1 / 2) with 1 by field. replace (0 / 2) with 0 by field. ring.
Qed.
(** the values on the halves of the polynomial with values [v], and the restriction of both halves *)
Definition prolonged (n : nat) (node v : nat -> R) (half i : nat) : R := mat_vec n (fun i j => py_prolong n node i j half) v i.
Definition restricted (n : nat) (node weight : nat -> R) (u : nat -> nat -> R) (i : nat) : R := rsum 2 (fun half => mat_vec n (fun i j => py_restrict n node weight i j half) (u half) i).
Lemma prolonged_nodal n node v half i : prolonged n node v half i = nodal n node v (half_point node half i).
Proof. unfold prolonged, mat_vec, nodal, py_prolong, half_point. apply rsum_ext. intros j J. rewrite py_interpolate_eq by exact J. ring. Qed.
(** restriction is the adjoint of prolongation *)
Lemma restrict_adjoint n node weight half (u v : nat -> R) : (forall i, (i < n)%nat -> weight i <> 0) ->
  inner n weight (mat_vec n (fun i j => py_restrict n node weight i j half) u) v = / 2 * inner n weight u (prolonged n node v half).
Proof.
  intros W. unfold inner, prolonged, mat_vec. rewrite <- rsum_scal.
  rewrite (rsum_ext n _ (fun i => rsum n (fun j => weight j / 2 * u j * (py_prolong n node j i half * v i)))).
  - rewrite rsum_swap. apply rsum_ext. intros j J. rewrite rsum_scal. unfold Rdiv. ring.
  - intros i I. rewrite <- rsum_scal_r, <- rsum_scal. apply rsum_ext. intros j J. unfold py_restrict. field. now apply W.
Qed.
Lemma inner_rsum n w k (f : nat -> nat -> R) v : inner n w (fun i => rsum k (fun h => f h i)) v = rsum k (fun h => inner n w (f h) v).
Proof. unfold inner. rewrite rsum_swap. apply rsum_ext. intros i I. rewrite <- rsum_scal_r, <- rsum_scal. reflexivity. Qed.
Lemma restricted_adjoint n node weight u v : (forall i, (i < n)%nat -> weight i <> 0) ->
  inner n weight (restricted n node weight u) v = rsum 2 (fun half => / 2 * inner n weight (u half) (prolonged n node v half)).
Proof. intros W. unfold restricted. rewrite inner_rsum. apply rsum_ext. intros h _. now apply restrict_adjoint. Qed.
(** prolongation keeps inner products *)
Lemma prolong_isometry n node weight v v' : (0 < n)%nat -> distinct n node -> integrates n node weight (2 * n - 1) ->
  rsum 2 (fun half => / 2 * inner n weight (prolonged n node v half) (prolonged n node v' half)) = inner n weight v v'.
Proof.
  intros N D Q. destruct n as [|n]; [lia|]. pose proof (poly_mult _ _ (nodal_poly (S n) node v) n _ (nodal_poly (S n) node v')) as P. replace (S n + n)%nat with (2 * S n - 1)%nat in P by lia.
  pose proof (halves _ _ _ _ _ Q P) as H. unfold inner. rewrite (rsum_ext (S n) (fun i => weight i * (v i * v' i)) (fun i => weight i * (nodal (S n) node v (node i) * nodal (S n) node v' (node i)))) by (intros; now rewrite !nodal_node).
  rewrite <- H. apply rsum_ext. intros h _. rewrite <- rsum_scal. apply rsum_ext. intros i I. rewrite !prolonged_nodal. field.
Qed.
Lemma inner_unique n w u v : (forall i, (i < n)%nat -> w i <> 0) -> (forall z, inner n w u z = inner n w v z) -> forall i, (i < n)%nat -> u i = v i.
Proof.
  intros W H i I. specialize (H (fun k => if (k =? i)%nat then 1 else 0)). unfold inner in H. rewrite !(rsum_single n i) in H; auto.
  - rewrite Nat.eqb_refl in H. apply (Rmult_eq_reg_l (w i)); [lra|now apply W].
  - intros k K NE. apply Nat.eqb_neq in NE. rewrite NE. ring.
  - intros k K NE. apply Nat.eqb_neq in NE. rewrite NE. ring.
Qed.
Lemma restrict_prolong n node weight v : (0 < n)%nat -> rule n node weight -> integrates n node weight (2 * n - 1) -> forall i, (i < n)%nat -> restricted n node weight (prolonged n node v) i = v i.
Proof.
  intros N [D W] Q. assert (NZ : forall i, (i < n)%nat -> weight i <> 0) by (intros i I; specialize (W i I); lra). apply (inner_unique n weight); [exact NZ|]. intros z. rewrite restricted_adjoint by exact NZ. now apply prolong_isometry.
Qed.
Lemma restrict_best n node weight u v : (0 < n)%nat -> rule n node weight -> integrates n node weight (2 * n - 1) ->
  let r := restricted n node weight u in
  rsum 2 (fun half => / 2 * inner n weight (fun i => u half i - prolonged n node v half i) (fun i => u half i - prolonged n node v half i)) =
  rsum 2 (fun half => / 2 * inner n weight (fun i => u half i - prolonged n node r half i) (fun i => u half i - prolonged n node r half i)) + inner n weight (fun i => v i - r i) (fun i => v i - r i).
Proof.
  intros N [D W] Q r. assert (NZ : forall i, (i < n)%nat -> weight i <> 0) by (intros i I; specialize (W i I); lra).
  assert (EX : forall a b, inner n weight (fun i => a i - b i) (fun i => a i - b i) = inner n weight a a - 2 * inner n weight a b + inner n weight b b).
  { intros a b. unfold inner. rewrite <- rsum_scal, <- rsum_minus, <- rsum_plus. apply rsum_ext. intros. ring. }
  assert (SUM : forall z, rsum 2 (fun half => / 2 * inner n weight (fun i => u half i - prolonged n node z half i) (fun i => u half i - prolonged n node z half i)) = rsum 2 (fun half => / 2 * inner n weight (u half) (u half)) - 2 * inner n weight r z + inner n weight z z).
  { intros z. rewrite <- (prolong_isometry n node weight z z N D Q). unfold r. rewrite (restricted_adjoint n node weight u z NZ). rewrite !two_sides. rewrite !(EX (u _) (prolonged n node z _)). ring. }
  rewrite !SUM, EX. rewrite (inner_sym n weight v r). ring.
Qed.
