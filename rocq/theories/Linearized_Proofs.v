(** Proofs about the linearized equation. *)
From Coq Require Import Reals Arith ZArith List Bool Lia Lra.
From Verif Require Import Outcome RSum Linearized_Model Linearized_Spec.
Open Scope R_scope.

Lemma stage_ok v : usable v -> stage (storage_start + v) = Ok (Z.to_nat (4 + v)).
Proof.
  intros [A B]. unfold stage, storage_start, n_storage.
  destruct (Z.leb_spec 0 (4 + v)); [|lia]. destruct (Z.ltb_spec (4 + v) (4 + 30)); [|lia]. reflexivity.
Qed.
Lemma stage_out v : ~ usable v -> stage (storage_start + v) = Ub.
Proof.
  intros N. unfold usable in N. unfold stage, storage_start, n_storage.
  destruct (Z.leb_spec 0 (4 + v)); [|reflexivity]. destruct (Z.ltb_spec (4 + v) (4 + 30)); [lia|reflexivity].
Qed.

Section P.
  Context {W : Type}.
  Implicit Type d : data W.
  Lemma vector_put out v f d : usable out -> usable v -> vector (put (Z.to_nat (4 + out)) f d) v = if (v =? out)%Z then f else vector d v.
  Proof.
    intros [A B] [C D]. unfold vector. cbn [stages put]. destruct (Z.eqb_spec v out) as [->|N].
    - now rewrite Nat.eqb_refl.
    - destruct (Nat.eqb_spec (Z.to_nat (4 + v)) (Z.to_nat (4 + out))); [lia|reflexivity].
  Qed.
  Lemma add_ok out c0 v0 c1 v1 d : usable out -> usable v0 -> usable v1 ->
    exists d', add out c0 v0 c1 v1 d = Ok d' /\ rest d' = rest d /\ vector d' out = (fun e i => c0 * vector d v0 e i + c1 * vector d v1 e i) /\ (forall v, usable v -> v <> out -> vector d' v = vector d v).
  Proof.
    intros A B C. unfold add. rewrite !stage_ok by assumption. cbn [bind]. eexists. split; [reflexivity|]. split; [reflexivity|]. split.
    - rewrite vector_put by assumption. now rewrite Z.eqb_refl.
    - intros v V N. rewrite vector_put by assumption. destruct (Z.eqb_spec v out); [contradiction|reflexivity].
  Qed.
  Lemma scale_ok out v0 c d : usable out -> usable v0 ->
    exists d', scale out v0 c d = Ok d' /\ rest d' = rest d /\ vector d' out = (fun e i => c * vector d v0 e i) /\ (forall v, usable v -> v <> out -> vector d' v = vector d v).
  Proof.
    intros A B. unfold scale. rewrite !stage_ok by assumption. cbn [bind]. eexists. split; [reflexivity|]. split; [reflexivity|]. split.
    - rewrite vector_put by assumption. now rewrite Z.eqb_refl.
    - intros v V N. rewrite vector_put by assumption. destruct (Z.eqb_spec v out); [contradiction|reflexivity].
  Qed.

  Section Op.
    Context (faces update : data W -> data W) (KF : keeps_vectors faces) (KU : keeps_upper update).
    Lemma matvec_any out inp d : (0 <= out < 30)%Z -> usable inp ->
      exists d1 d', moved d inp d1 /\ matvec faces update out inp d = Ok d' /\
        (let b := if (out =? 1)%Z then (fun e i => vector (update (faces d1)) (-4) e i - vector (update (faces d1)) (-3) e i) else vector d 1 in
         forall e i, vector d' out e i = (vector (update (faces d1)) (-4) e i - vector (update (faces d1)) (-3) e i - b e i) / finite_diff) /\
        (forall e i, vector d' (-4) e i = vector d (-1) e i) /\
        (forall v, (-1 <= v < 30)%Z -> v <> out -> vector d' v = vector d v).
    Proof.
      intros O I. unfold matvec. change (- storage_start)%Z with (-4)%Z. change (-4 + 1)%Z with (-3)%Z. change (-4 + 3)%Z with (-1)%Z.
      assert (U : forall v, (-4 <= v < 30)%Z -> usable v) by (intros v H; exact H).
      assert (FD : finite_diff <> 0) by (unfold finite_diff; lra).
      destruct (add_ok (-4) 1 (-4) finite_diff inp d) as (d1 & E1 & R1 & V1 & K1); try (apply U; lia); [exact I|].
      exists d1. rewrite E1. cbn [bind]. set (d2 := update (faces d1)).
      assert (K2 : forall v, (-1 <= v < 30)%Z -> vector d2 v = vector d v).
      { intros v H. unfold d2. rewrite KU by exact H. rewrite KF by (apply U; lia). apply K1; [apply U; lia|lia]. }
      destruct (add_ok out 1 (-4) (-1) (-3) d2) as (d3 & E3 & R3 & V3 & K3); try (apply U; lia). rewrite E3. cbn [bind].
      destruct (add_ok out 1 out (-1) 1 d3) as (d4 & E4 & R4 & V4 & K4); try (apply U; lia). rewrite E4. cbn [bind].
      destruct (scale_ok out out (1 / finite_diff) d4) as (d5 & E5 & R5 & V5 & K5); try (apply U; lia). rewrite E5. cbn [bind].
      destruct (scale_ok (-4) (-1) 1 d5) as (d6 & E6 & R6 & V6 & K6); try (apply U; lia). rewrite E6. cbn [bind].
      exists (faces d6). split; [|split; [reflexivity|split; [|split]]].
      - split; [exact R1|]. split; [intros e i; rewrite V1; ring|]. intros v H. apply K1; [apply U; lia|lia].
      - cbv zeta. intros e i. rewrite KF by (apply U; lia). rewrite K6 by (try (apply U; lia); lia). rewrite V5, V4, V3.
        destruct (Z.eqb_spec out 1) as [->|N].
        + rewrite V3. field. exact FD.
        + rewrite K3 by (try (apply U; lia); lia). rewrite (K2 1%Z) by lia. field. exact FD.
      - intros e i. rewrite KF by (apply U; lia). rewrite V6. rewrite K5, K4, K3 by (try (apply U; lia); lia). rewrite K2 by lia. ring.
      - intros v H N. rewrite KF by (apply U; lia). rewrite K6, K5, K4, K3 by (try (apply U; lia); lia). apply K2. exact H.
    Qed.
    Lemma linearized_main d : exists d', linearized faces update d = Ok d' /\
      (forall e i, vector d' 0 e i = 0 /\ vector d' 1 e i = 0 /\ vector d' (-1) e i = vector d (-4) e i /\ vector d' (-4) e i = vector d (-4) e i).
    Proof.
      unfold linearized. change (- storage_start)%Z with (-4)%Z. change (-4 + 3)%Z with (-1)%Z.
      assert (U : forall v, (-4 <= v < 30)%Z -> usable v) by (intros v H; exact H).
      destruct (scale_ok (-1) (-4) 1 d) as (d1 & E1 & R1 & V1 & K1); try (apply U; lia). rewrite E1. cbn [bind].
      destruct (scale_ok 0 (-4) 0 d1) as (d2 & E2 & R2 & V2 & K2); try (apply U; lia). rewrite E2. cbn [bind].
      destruct (scale_ok 1 (-4) 0 d2) as (d3 & E3 & R3 & V3 & K3); try (apply U; lia). rewrite E3. cbn [bind].
      destruct (matvec_any 1 0 d3) as (d4 & d5 & M & E5 & V5 & P5 & K5); [lia|apply U; lia|]. rewrite E5.
      exists d5. split; [reflexivity|]. intros e i.
      assert (F1 : vector d3 (-1) e i = vector d (-4) e i).
      { rewrite K3, K2 by (try (apply U; lia); lia). rewrite V1. ring. }
      repeat split.
      - rewrite K5 by lia. rewrite K3 by (try (apply U; lia); lia). rewrite V2. ring.
      - rewrite V5. cbv zeta. replace (1 =? 1)%Z with true by reflexivity. unfold Rdiv. rewrite Rminus_diag_eq by reflexivity. ring.
      - rewrite K5 by lia. exact F1.
      - rewrite P5. exact F1.
    Qed.
  End Op.

  Section In.
    Context (n_elem n_var nq : nat) (weights ref_state : nat -> R).
    Context (PW : forall q, (q < nq)%nat -> 0 < weights q) (PR : forall v, (v < n_var)%nat -> 0 < ref_state v).
    Definition product (x y : field) : R :=
      rsum n_elem (fun e => rsum n_var (fun v => rsum nq (fun q => x e (v * nq + q)%nat * weights q / ref_state v * y e (v * nq + q)%nat))).
    Lemma inner_ok a b d : usable a -> usable b -> inner n_elem n_var nq weights ref_state a b d = Ok (product (vector d a) (vector d b)).
    Proof. intros A B. unfold inner. rewrite !stage_ok by assumption. reflexivity. Qed.
    Lemma product_sym (x y : field) : product x y = product y x.
    Proof. unfold product. apply rsum_ext; intros e _. apply rsum_ext; intros v _. apply rsum_ext; intros q _. unfold Rdiv. ring. Qed.
    Lemma product_lin a (x : field) b (y z : field) : product (fun e i => a * x e i + b * y e i) z = a * product x z + b * product y z.
    Proof.
      unfold product. rewrite <- !rsum_scal, <- rsum_plus. apply rsum_ext; intros e _.
      rewrite <- !rsum_scal, <- rsum_plus. apply rsum_ext; intros v _.
      rewrite <- !rsum_scal, <- rsum_plus. apply rsum_ext; intros q _. unfold Rdiv. ring.
    Qed.
    Lemma term_pos (x : field) e v q : (v < n_var)%nat -> (q < nq)%nat -> 0 <= x e (v * nq + q)%nat * weights q / ref_state v * x e (v * nq + q)%nat.
    Proof.
      intros V Q. specialize (PW q Q). specialize (PR v V). set (y := x e _).
      replace (y * weights q / ref_state v * y) with ((y * y) * (weights q / ref_state v)) by (unfold Rdiv; ring).
      apply Rmult_le_pos; [nra|]. apply Rlt_le, Rdiv_lt_0_compat; assumption.
    Qed.
    Lemma product_pos x : 0 <= product x x.
    Proof. unfold product. apply rsum_nonneg; intros e _. apply rsum_nonneg; intros v V. apply rsum_nonneg; intros q Q. now apply term_pos. Qed.
    Lemma product_def x : product x x = 0 -> forall e i, (e < n_elem)%nat -> (i < n_var * nq)%nat -> x e i = 0.
    Proof.
      intros Z e i E I. assert (NQ : (nq <> 0)%nat) by (intros ->; lia).
      pose (v := (i / nq)%nat). pose (q := (i mod nq)%nat).
      assert (V : (v < n_var)%nat) by (apply Nat.div_lt_upper_bound; lia).
      assert (Q : (q < nq)%nat) by (apply Nat.mod_upper_bound; exact NQ).
      assert (EI : (i = v * nq + q)%nat) by (unfold v, q; rewrite (Nat.div_mod i nq NQ) at 1; lia).
      unfold product in Z. pose proof (rsum_eq_0 _ _ (fun e' _ => rsum_nonneg n_var _ (fun v' V' => rsum_nonneg nq _ (fun q' Q' => term_pos x e' v' q' V' Q'))) Z e E) as Z1.
      pose proof (rsum_eq_0 _ _ (fun v' V' => rsum_nonneg nq _ (fun q' Q' => term_pos x e v' q' V' Q')) Z1 v V) as Z2.
      pose proof (rsum_eq_0 _ _ (fun q' Q' => term_pos x e v q' V Q') Z2 q Q) as Z3. cbv beta in Z3. rewrite <- EI in Z3.
      specialize (PW q Q). specialize (PR v V).
      assert (P : 0 < weights q / ref_state v) by (apply Rdiv_lt_0_compat; assumption).
      replace (x e i * weights q / ref_state v * x e i) with ((x e i * x e i) * (weights q / ref_state v)) in Z3 by (unfold Rdiv; ring).
      apply Rmult_integral in Z3. destruct Z3 as [Z3|Z3]; [|lra]. apply Rmult_integral in Z3. now destruct Z3.
    Qed.
  End In.
End P.
