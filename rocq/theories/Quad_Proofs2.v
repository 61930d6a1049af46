(** Proofs about quadrature bases: Legendre polynomials and the filter. *)
From Coq Require Import Reals List Arith Lia Lra FunctionalExtensionality.
From Verif Require Import Outcome RSum Basis_Model Basis_Spec Basis_Proofs Quad_Model Quad_Spec Quad_Proofs.
Import ListNotations.
Local Open Scope R_scope.

Lemma legendre_snd k x : snd (legendre_pair k x) = sp_legendre (S k) x.
Proof. unfold sp_legendre. cbn [legendre_pair]. destruct (legendre_pair k x). reflexivity. Qed.
Lemma legendre_0 x : sp_legendre 0 x = 1.
Proof. reflexivity. Qed.
Lemma legendre_1 x : sp_legendre 1 x = x.
Proof. reflexivity. Qed.
Lemma legendre_SS k x : sp_legendre (S (S k)) x = ((2 * INR k + 3) * x * sp_legendre (S k) x - (INR k + 1) * sp_legendre k x) / (INR k + 2).
Proof. rewrite <- !legendre_snd. unfold sp_legendre. cbn [legendre_pair]. destruct (legendre_pair k x). reflexivity. Qed.
(** the derivative by its recurrence *)
Fixpoint dlegendre_pair (k : nat) (x : R) : R * R :=
  match k with
  | O => (0, 1)
  | S k' => let '(p, q) := dlegendre_pair k' x in (q, ((2 * INR k' + 3) * (sp_legendre (S k') x + x * q) - (INR k' + 1) * p) / (INR k' + 2))
  end.
Definition dlegendre (k : nat) (x : R) : R := fst (dlegendre_pair k x).
Lemma dlegendre_snd k x : snd (dlegendre_pair k x) = dlegendre (S k) x.
Proof. unfold dlegendre. cbn [dlegendre_pair]. destruct (dlegendre_pair k x). reflexivity. Qed.
Lemma dlegendre_SS k x : dlegendre (S (S k)) x = ((2 * INR k + 3) * (sp_legendre (S k) x + x * dlegendre (S k) x) - (INR k + 1) * dlegendre k x) / (INR k + 2).
Proof. rewrite <- !dlegendre_snd. unfold dlegendre. cbn [dlegendre_pair]. destruct (dlegendre_pair k x). reflexivity. Qed.
Lemma two_step (P : nat -> Prop) : P 0%nat -> P 1%nat -> (forall k, P k -> P (S k) -> P (S (S k))) -> forall k, P k.
Proof. intros A B C k. enough (P k /\ P (S k)) by tauto. induction k as [|k [IH1 IH2]]; auto. Qed.
Lemma legendre_deriv k : deriv (sp_legendre k) (dlegendre k).
Proof.
  induction k as [| |k IH1 IH2] using two_step.
  - apply (deriv_ext (fun _ => 1) _ (fun _ => 0)); [apply deriv_const|reflexivity|reflexivity].
  - apply (deriv_ext (fun x => x) _ (fun _ => 1)); [apply deriv_id|reflexivity|reflexivity].
  - assert (Z : INR k + 2 <> 0) by (pose proof (pos_INR k); lra).
    apply (deriv_ext (fun x => / (INR k + 2) * ((2 * INR k + 3) * (x * sp_legendre (S k) x) - (INR k + 1) * sp_legendre k x)) _ (fun x => / (INR k + 2) * ((2 * INR k + 3) * (1 * sp_legendre (S k) x + x * dlegendre (S k) x) - (INR k + 1) * dlegendre k x))).
    + apply deriv_scal, deriv_minus; apply deriv_scal; [|exact IH1]. apply deriv_mult; [apply deriv_id|exact IH2].
    + intros x. rewrite legendre_SS. field. exact Z.
    + intros x. rewrite dlegendre_SS. field. exact Z.
Qed.
Lemma legendre_poly k : poly (S k) (sp_legendre k).
Proof.
  induction k as [| |k IH1 IH2] using two_step.
  - apply (poly_const 0 1).
  - apply (poly_S 1 0 (fun _ => 1)); [apply poly_const|intros; rewrite legendre_1; ring].
  - assert (Z : INR k + 2 <> 0) by (pose proof (pos_INR k); lra). apply (poly_ext _ (fun x => sp_legendre (S k) x * ((2 * INR k + 3) / (INR k + 2) * x + 0) + (- (INR k + 1) / (INR k + 2)) * sp_legendre k x)).
    + apply poly_plus; [now apply poly_linear|]. apply poly_scal. now do 2 apply poly_weaken.
    + intros x. rewrite legendre_SS. field. exact Z.
Qed.
(** x P'_{k+1} - P'_k = (k+1) P_{k+1}, and P'_{k+1} = (k+1) P_k + x P'_k *)
Lemma legendre_ladder k x : x * dlegendre (S k) x - dlegendre k x = (INR k + 1) * sp_legendre (S k) x /\ dlegendre (S k) x = (INR k + 1) * sp_legendre k x + x * dlegendre k x.
Proof.
  induction k as [|k [B A]].
  - unfold dlegendre, sp_legendre. cbn. split; ring.
  - assert (Z : INR k + 2 <> 0) by (pose proof (pos_INR k); lra). rewrite S_INR.
    assert (A' : dlegendre (S (S k)) x = (INR k + 1 + 1) * sp_legendre (S k) x + x * dlegendre (S k) x).
    { rewrite dlegendre_SS. replace (dlegendre k x) with (x * dlegendre (S k) x - (INR k + 1) * sp_legendre (S k) x) by lra. field. exact Z. }
    split; [|exact A']. rewrite A'.
    assert (C : (x * x - 1) * dlegendre (S k) x = (INR k + 1) * (x * sp_legendre (S k) x - sp_legendre k x)).
    { assert (E : dlegendre k x = x * dlegendre (S k) x - (INR k + 1) * sp_legendre (S k) x) by lra. rewrite E in A. lra. }
    rewrite legendre_SS. apply (Rmult_eq_reg_l 1); [|lra]. replace ((INR k + 1 + 1) * (((2 * INR k + 3) * x * sp_legendre (S k) x - (INR k + 1) * sp_legendre k x) / (INR k + 2))) with ((2 * INR k + 3) * x * sp_legendre (S k) x - (INR k + 1) * sp_legendre k x) by (field; exact Z). lra.
Qed.
(** (1-x^2) P'_k = k (P_{k-1} - x P_k), whose derivative is -k (k+1) P_k *)
Definition flux_leg (k : nat) (x : R) : R := (1 - x * x) * dlegendre k x.
Lemma flux_leg_deriv k : deriv (flux_leg k) (fun x => - (INR k * (INR k + 1)) * sp_legendre k x).
Proof.
  destruct k as [|k].
  - apply (deriv_ext (fun _ => 0) _ (fun _ => 0)); [apply deriv_const| |intros; cbn [INR]; ring]. intros. unfold flux_leg, dlegendre. cbn. ring.
  - apply (deriv_ext (fun x => (INR k + 1) * (sp_legendre k x - x * sp_legendre (S k) x)) _ (fun x => (INR k + 1) * (dlegendre k x - (1 * sp_legendre (S k) x + x * dlegendre (S k) x)))).
    + apply deriv_scal, deriv_minus; [apply legendre_deriv|]. apply deriv_mult; [apply deriv_id|apply legendre_deriv].
    + intros x. unfold flux_leg. destruct (legendre_ladder k x) as [B A]. assert (E : dlegendre k x = x * dlegendre (S k) x - (INR k + 1) * sp_legendre (S k) x) by lra. rewrite E in A. lra.
    + intros x. destruct (legendre_ladder k x) as [B A]. rewrite S_INR. replace (dlegendre k x) with (x * dlegendre (S k) x - (INR k + 1) * sp_legendre (S k) x) by lra. ring.
Qed.
Lemma wronskian k m : deriv (fun x => flux_leg k x * sp_legendre m x - flux_leg m x * sp_legendre k x) (fun x => (INR m * (INR m + 1) - INR k * (INR k + 1)) * (sp_legendre k x * sp_legendre m x)).
Proof.
  apply (deriv_ext (fun x => flux_leg k x * sp_legendre m x - flux_leg m x * sp_legendre k x) _
    (fun x => (- (INR k * (INR k + 1)) * sp_legendre k x * sp_legendre m x + flux_leg k x * dlegendre m x) - (- (INR m * (INR m + 1)) * sp_legendre m x * sp_legendre k x + flux_leg m x * dlegendre k x))); [|reflexivity|intros; unfold flux_leg; ring].
  apply deriv_minus; apply deriv_mult; first [apply flux_leg_deriv|apply legendre_deriv].
Qed.
(** on the nodes *)
Definition leg (node : nat -> R) (k i : nat) : R := sp_legendre k (node i * 2 - 1).
Lemma leg_orthogonal n node weight k m : integrates n node weight (2 * n - 2) -> (k < n)%nat -> (m < n)%nat -> k <> m -> inner n weight (leg node k) (leg node m) = 0.
Proof.
  intros Q K M NE. assert (LAM : INR m * (INR m + 1) - INR k * (INR k + 1) <> 0).
  { intros Z. assert (E : (INR m - INR k) * (INR m + INR k + 1) = 0) by lra. pose proof (pos_INR m). pose proof (pos_INR k). destruct (Rmult_integral _ _ E) as [H1|H1]; [|lra]. apply NE. apply INR_eq. lra. }
  assert (P : poly (2 * n - 2) (fun x => sp_legendre k (2 * x + -1) * sp_legendre m (2 * x + -1))).
  { apply (poly_weaken_le (S k + m)); [lia|]. apply poly_mult; apply (poly_affine _ _ 2 (-1)); apply legendre_poly. }
  set (W := fun x => flux_leg k x * sp_legendre m x - flux_leg m x * sp_legendre k x).
  assert (D : deriv (fun x => / (2 * (INR m * (INR m + 1) - INR k * (INR k + 1))) * W (2 * x + -1)) (fun x => sp_legendre k (2 * x + -1) * sp_legendre m (2 * x + -1))).
  { apply (deriv_ext (fun x => / (2 * (INR m * (INR m + 1) - INR k * (INR k + 1))) * W (2 * x + -1)) _ (fun x => / (2 * (INR m * (INR m + 1) - INR k * (INR k + 1))) * (2 * ((INR m * (INR m + 1) - INR k * (INR k + 1)) * (sp_legendre k (2 * x + -1) * sp_legendre m (2 * x + -1)))))); [|reflexivity|intros; field; exact LAM].
    apply deriv_scal. exact (deriv_affine W _ 2 (-1) (wronskian k m)). }
  pose proof (quadrature _ _ _ _ _ _ Q P D) as H. cbn beta in H. replace (2 * 1 + -1) with 1 in H by ring. replace (2 * 0 + -1) with (-1) in H by ring.
  unfold inner, leg. rewrite (rsum_ext n _ (fun i => weight i * (sp_legendre k (2 * node i + -1) * sp_legendre m (2 * node i + -1)))); [|intros; replace (node i * 2 - 1) with (2 * node i + -1) by ring; reflexivity]. rewrite H. unfold W, flux_leg. ring.
Qed.
Lemma leg_at_1 k : sp_legendre k 1 = 1.
Proof. induction k as [| |k IH1 IH2] using two_step; [reflexivity|reflexivity|]. rewrite legendre_SS, IH1, IH2. field. pose proof (pos_INR k). lra. Qed.
Lemma leg_norm n node weight k : rule n node weight -> (k < n)%nat -> 0 < inner n weight (leg node k) (leg node k).
Proof.
  intros [D W] K. destruct (Rle_lt_or_eq_dec 0 (inner n weight (leg node k) (leg node k))) as [L|E].
  - unfold inner. apply rsum_nonneg. intros i I. specialize (W i I). pose proof (Rle_0_sqr (leg node k i)). unfold Rsqr in *. apply Rmult_le_pos; lra.
  - exact L.
  - exfalso. symmetry in E. assert (Z : forall i, (i < n)%nat -> leg node k i = 0).
    { intros i I. assert (G : weight i * (leg node k i * leg node k i) = 0). { apply (rsum_eq_0 n (fun i => weight i * (leg node k i * leg node k i))); [|exact E|exact I]. intros j J. specialize (W j J). pose proof (Rle_0_sqr (leg node k j)). unfold Rsqr in *. apply Rmult_le_pos; lra. }
      specialize (W i I). destruct (Rmult_integral _ _ G) as [?|G2]; [lra|]. destruct (Rmult_integral _ _ G2); assumption. }
    assert (P : poly n (fun x => sp_legendre k (2 * x + -1))) by (apply (poly_weaken_le (S k)); [lia|]; apply (poly_affine _ _ 2 (-1)); apply legendre_poly).
    pose proof (poly_roots n _ node P D) as R. assert (F : sp_legendre k (2 * 1 + -1) = 0). { apply R. intros i I. replace (2 * node i + -1) with (node i * 2 - 1) by ring. now apply Z. }
    replace (2 * 1 + -1) with 1 in F by ring. rewrite leg_at_1 in F. lra.
Qed.
Lemma fold_rsum n (f : nat -> R) : fold_left (fun acc i => acc + f i) (seq 0 n) 0 = rsum n f.
Proof. induction n as [|n IH]; [reflexivity|]. rewrite seq_S, fold_left_app, IH. reflexivity. Qed.
Lemma py_legendre_eq n node weight k i : py_legendre n node weight k i = leg node k i / sqrt (inner n weight (leg node k) (leg node k)).
Proof. unfold py_legendre. rewrite fold_rsum. f_equal. f_equal. unfold inner. apply rsum_ext. intros. unfold leg. ring. Qed.
Lemma orthonormal n node weight k m : rule n node weight -> integrates n node weight (2 * n - 2) -> (k < n)%nat -> (m < n)%nat ->
  inner n weight (py_legendre n node weight k) (py_legendre n node weight m) = if (k =? m)%nat then 1 else 0.
Proof.
  intros RU Q K M. set (N := fun k => sqrt (inner n weight (leg node k) (leg node k))).
  assert (POS : forall k, (k < n)%nat -> 0 < N k) by (intros; apply sqrt_lt_R0; now apply leg_norm).
  assert (E : inner n weight (py_legendre n node weight k) (py_legendre n node weight m) = inner n weight (leg node k) (leg node m) / (N k * N m)).
  { unfold inner at 1. rewrite (rsum_ext n _ (fun i => weight i * (leg node k i * leg node m i) * / (N k * N m))); [rewrite rsum_scal_r; reflexivity|]. intros i I. rewrite !py_legendre_eq. fold (N k) (N m). field. pose proof (POS k K). pose proof (POS m M). lra. }
  rewrite E. destruct (Nat.eqb_spec k m) as [->|NE]; [|rewrite leg_orthogonal by assumption; unfold Rdiv; ring].
  unfold N. rewrite sqrt_sqrt by (apply Rlt_le; now apply leg_norm). field. pose proof (leg_norm n node weight m RU M). lra.
Qed.
Lemma py_filter_apply n node weight v i : mat_vec n (py_filter n node weight) v i = rsum n (fun k => (1 / 2) ^ k * inner n weight (py_legendre n node weight k) v * py_legendre n node weight k i).
Proof.
  unfold mat_vec, py_filter. rewrite (rsum_ext n _ (fun j => rsum n (fun k => py_legendre n node weight k i * (1 / 2) ^ k * py_legendre n node weight k j * weight j * v j))); [|intros j J; rewrite fold_rsum, <- rsum_scal_r; reflexivity].
  rewrite rsum_swap. apply rsum_ext. intros k K. unfold inner. rewrite (Rmult_comm ((1 / 2) ^ k)), Rmult_assoc, <- rsum_scal_r. apply rsum_ext. intros. ring.
Qed.
Lemma filter_mode n node weight m i : rule n node weight -> integrates n node weight (2 * n - 2) -> (m < n)%nat ->
  mat_vec n (py_filter n node weight) (py_legendre n node weight m) i = (1 / 2) ^ m * py_legendre n node weight m i.
Proof.
  intros RU Q M. rewrite py_filter_apply. rewrite (rsum_single n m); [rewrite orthonormal, Nat.eqb_refl by assumption; ring|exact M|].
  intros k K NE. rewrite orthonormal by assumption. apply Nat.eqb_neq in NE. rewrite NE. ring.
Qed.
Lemma mode_0 n node weight i : rule n node weight -> (0 < n)%nat -> integrates n node weight 1 -> py_legendre n node weight 0 i = 1.
Proof.
  intros RU N Q. rewrite py_legendre_eq. unfold leg. rewrite legendre_0. replace (inner n weight _ _) with 1; [rewrite sqrt_1; field|].
  unfold inner. pose proof (Q (fun _ => 1)) as H. unfold polynomial, integral in H. cbn [rsum INR] in H. rewrite (rsum_ext n _ (fun i => weight i * (0 + 1 * node i ^ 0))); [rewrite H; field|]. intros. rewrite !legendre_0. cbn [pow]. ring.
Qed.
(** the filter keeps the mean *)
Lemma filter_mean n node weight v : rule n node weight -> (2 <= n)%nat -> integrates n node weight (2 * n - 2) ->
  rsum n (fun i => weight i * mat_vec n (py_filter n node weight) v i) = rsum n (fun i => weight i * v i).
Proof.
  intros RU N Q. assert (M0 : forall i, py_legendre n node weight 0 i = 1) by (intros; apply mode_0; [assumption|lia|apply (integrates_le n node weight (2 * n - 2)); [lia|exact Q]]).
  rewrite (rsum_ext n _ (fun i => rsum n (fun k => (1 / 2) ^ k * inner n weight (py_legendre n node weight k) v * (weight i * (py_legendre n node weight 0 i * py_legendre n node weight k i))))); [|intros i I; rewrite py_filter_apply, <- rsum_scal; apply rsum_ext; intros; rewrite M0; ring].
  rewrite rsum_swap. rewrite (rsum_ext n _ (fun k => (1 / 2) ^ k * inner n weight (py_legendre n node weight k) v * inner n weight (py_legendre n node weight 0) (py_legendre n node weight k))) by (intros; now rewrite rsum_scal).
  rewrite (rsum_single n 0%nat); [|lia|intros k K NE; rewrite orthonormal by (assumption || lia); replace (0 =? k)%nat with false by (symmetry; apply Nat.eqb_neq; lia); ring].
  rewrite orthonormal by (assumption || lia). cbn [Nat.eqb pow]. rewrite Rmult_1_r, Rmult_1_l. unfold inner. apply rsum_ext. intros. rewrite M0. ring.
Qed.

(** ** Tables *)
Lemma read_all_ok l : forall count offset, (offset + count <= List.length l)%nat -> read_all l offset count = Ok (firstn count (skipn offset l)).
Proof.
  induction count as [|c IH]; intros offset H; [reflexivity|]. cbn [read_all]. unfold read_table. destruct (nth_error l offset) as [x|] eqn:E; [|apply nth_error_None in E; lia]. cbn [bind]. rewrite IH by lia. cbn [bind]. f_equal.
  apply nth_error_split in E. destruct E as (l1 & l2 & -> & L). rewrite !skipn_app, <- L. rewrite (skipn_all2 l1 (n := List.length l1)) by lia. rewrite (skipn_all2 l1 (n := S (List.length l1))) by lia. replace (List.length l1 - List.length l1)%nat with 0%nat by lia. replace (S (List.length l1) - List.length l1)%nat with 1%nat by lia. reflexivity.
Qed.
Lemma read_all_ub l : forall count offset, (List.length l < offset + count)%nat -> (0 < count)%nat -> read_all l offset count = Ub.
Proof.
  induction count as [|c IH]; intros offset H P; [lia|]. cbn [read_all]. unfold read_table. destruct (nth_error l offset) as [x|] eqn:E; [|reflexivity]. cbn [bind]. assert (offset < List.length l)%nat by (apply nth_error_Some; congruence). rewrite IH by lia. reflexivity.
Qed.
Lemma concat_uniform_length {A} (ll : list (list A)) n : (forall l, In l ll -> List.length l = n) -> List.length (concat ll) = (List.length ll * n)%nat.
Proof. induction ll as [|l ll IH]; intros H; [reflexivity|]. cbn [concat List.length]. rewrite app_length, IH by (intros; apply H; now right). rewrite (H l) by now left. lia. Qed.
Lemma concat_uniform_nth (ll : list (list R)) n : (forall l, In l ll -> List.length l = n) -> forall j i, (j < List.length ll)%nat -> (i < n)%nat -> nth (j * n + i) (concat ll) 0 = nth i (nth j ll []) 0.
Proof.
  induction ll as [|l ll IH]; intros H j i J I; [cbn in J; lia|]. pose proof (H l ltac:(now left)) as L. cbn [concat]. destruct j as [|j]; cbn [nth].
  - rewrite app_nth1 by lia. reflexivity.
  - rewrite app_nth2 by (rewrite L; nia). rewrite L. replace (S j * n + i - n)%nat with (j * n + i)%nat by nia. apply IH; [intros; apply H; now right|cbn in J; lia|exact I].
Qed.
Lemma table_length outer inn f : List.length (table outer inn f) = (outer * inn)%nat.
Proof. unfold table. rewrite (concat_uniform_length _ inn); [now rewrite map_length, seq_length|]. intros l L. apply in_map_iff in L. destruct L as (i & <- & _). now rewrite map_length, seq_length. Qed.
Lemma nth_map_seq n (f : nat -> R) i : (i < n)%nat -> nth i (map f (seq 0 n)) 0 = f i.
Proof. intros I. rewrite (nth_indep _ 0 (f 0%nat)) by (now rewrite map_length, seq_length). rewrite (map_nth f), seq_nth by exact I. reflexivity. Qed.
Lemma table_nth outer inn f i j : (i < outer)%nat -> (j < inn)%nat -> nth (i * inn + j) (table outer inn f) 0 = f i j.
Proof.
  intros I J. unfold table. rewrite (concat_uniform_nth _ inn).
  - rewrite (nth_indep _ [] (map (fun j => f 0%nat j) (seq 0 inn))) by (now rewrite map_length, seq_length). rewrite (map_nth (fun i => map (fun j => f i j) (seq 0 inn))), seq_nth by exact I. now rewrite nth_map_seq.
  - intros l L. apply in_map_iff in L. destruct L as (k & <- & _). now rewrite map_length, seq_length.
  - now rewrite map_length, seq_length.
  - exact J.
Qed.
Lemma firstn_nth (l : list R) n i : (i < n)%nat -> nth i (firstn n l) 0 = nth i l 0.
Proof. revert n i. induction l as [|x l IH]; intros n i I; [now rewrite firstn_nil|]. destruct n; [lia|]. destruct i; [reflexivity|]. cbn. apply IH. lia. Qed.
Lemma skipn_nth (l : list R) n i : nth i (skipn n l) 0 = nth (n + i) l 0.
Proof. revert n. induction l as [|x l IH]; intros n; [rewrite skipn_nil; destruct i, n; reflexivity|]. destruct n; [reflexivity|]. cbn. apply IH. Qed.
Lemma chunk_nth (l : list R) offset count k : (k < count)%nat -> nth k (firstn count (skipn offset l)) 0 = nth (offset + k) l 0.
Proof. intros K. rewrite firstn_nth by exact K. apply skipn_nth. Qed.
