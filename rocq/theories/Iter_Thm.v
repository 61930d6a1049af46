(** Theorems about the iterative solvers of linear equations (src/iterative.cpp, src/Linear_equation.cpp). *)
From Coq Require Import Reals Arith Lia Lra Psatz List Bool.
From Verif Require Import Outcome RSum Iter_Model Iter_Spec Iter_Proofs Iter_Proofs2 Iter_Proofs3 Iter_Proofs4 Iter_Proofs5.
Open Scope R_scope.

(** ** GMRES *)

(** Each restart moves the solution to the one with the smallest residual in the Krylov space of dimension [m] of the current
    residual; the right-hand side is kept. [lsq] is any least-squares solver. *)
Theorem gmres_optimal : forall n e lsq m k st b x,
  linear_equation n e -> (m + 4 <= n_vecs e)%nat -> least_squares m (lsq m) ->
  st 0%nat = Some x -> st 1%nat = Some b ->
  exists st', gmres lsq e m k st = Ok st' /\ st' 1%nat = Some b
    /\ forall x', st' 0%nat = Some x' ->
       exists xs, xs 0%nat = x /\ xs k = x' /\ forall i, (i < k)%nat -> krylov_optimal n e m b (xs i) (xs (S i)).
Proof.
  intros n e lsq m k st b x OK N LS X B. destruct (gmres_run n e OK lsq m st b x N LS X B k) as (st' & E & B' & H).
  exists st'. split; auto. split; auto. intros x' X'. destruct (H x' X') as (xs & H0 & Hk & Hs). exists xs.
  split; auto. split; auto. intros i Hi. apply Hs. auto.
Qed.
Print Assumptions gmres_optimal.

(** The residual never grows. *)
Theorem gmres_monotone : forall n e lsq m k st st' b x x',
  linear_equation n e -> (m + 4 <= n_vecs e)%nat -> least_squares m (lsq m) ->
  st 0%nat = Some x -> st 1%nat = Some b -> gmres lsq e m k st = Ok st' -> st' 0%nat = Some x' ->
  sqnorm e (residual e b x') <= sqnorm e (residual e b x).
Proof.
  intros n e lsq m k st st' b x x' OK N LS X B E X'. destruct (gmres_optimal n e lsq m k st b x OK N LS X B) as (st2 & E2 & _ & H).
  assert (st2 = st') by congruence. subst st2. destruct (H x' X') as (xs & <- & <- & Hs). clear H X' E E2 X.
  assert (G : forall i, (i <= k)%nat -> sqnorm e (residual e b (xs i)) <= sqnorm e (residual e b (xs 0%nat))).
  { induction i as [|i IH]; intros Hi; [lra|]. eapply Rle_trans; [apply (optimal_le n e OK m b (xs i)); apply Hs; lia|]. apply IH. lia. }
  apply G. lia.
Qed.
Print Assumptions gmres_monotone.

(** With as many vectors as dimensions, one restart solves the equation. *)
Theorem gmres_exact : forall n e lsq k st st' b x x',
  linear_equation n e -> onto n e -> (n + 4 <= n_vecs e)%nat -> least_squares n (lsq n) ->
  st 0%nat = Some x -> st 1%nat = Some b -> gmres lsq e n (S k) st = Ok st' -> st' 0%nat = Some x' ->
  solves n e b x'.
Proof.
  intros n e lsq k st st' b x x' OK On N LS X B E X'.
  destruct (gmres_run n e OK lsq n st b x N LS X B (S k)) as (st2 & E2 & _ & H).
  assert (st2 = st') by congruence. subst st2. destruct (H x' X') as (xs & _ & <- & Hs).
  destruct (Hs k ltac:(lia)) as (KO & In). exact (optimal_exact n e OK b (xs k) (xs (S k)) On KO In).
Qed.
Print Assumptions gmres_exact.

(** The guard checks that there are [m + 3] vectors, which include/iterative.hpp states to be enough, but the algorithm uses
    vector [m + 3]: with exactly as many vectors as asked for, memory beyond the last vector is used. *)
Theorem gmres_storage_refuted : forall lsq e m k st,
  n_vecs e = (S m + 3)%nat -> gmres lsq e (S m) (S k) st = Ub.
Proof.
  intros lsq e m k st N. unfold gmres. assert (K3 : krylov_start = 3%nat) by reflexivity. rewrite K3, N.
  destruct (Nat.leb_spec (3 + S m) (S m + 3)); [|lia].
  assert (C : forall st, gmres_cycle lsq e (S m) st = Ub) by (intros s; now apply cycle_ub).
  clear - C. induction k as [|k IH]; [cbn [loopn bind]; apply C|]. rewrite loopn_S. now rewrite IH.
Qed.
Print Assumptions gmres_storage_refuted.

(** Solver::update_implicit (src/Solver.cpp:892) calls [gmres(lin, 27, 1)] on an object with [n_storage = 30] vectors
    (include/Solver.hpp:73). *)
Example gmres_storage_example : forall lsq op ip st, gmres lsq {| n_vecs := 30; op := op; ip := ip |} 27 1 st = Ub.
Proof. intros. apply gmres_storage_refuted. reflexivity. Qed.

(** What is true: [m + 4] vectors are enough, whatever they contain; fewer than [m + 3] are refused. *)
Theorem gmres_storage_partial : forall lsq e m k st,
  ((m + 4 <= n_vecs e)%nat -> exists st', gmres lsq e m k st = Ok st')
  /\ ((n_vecs e < m + 3)%nat -> gmres lsq e m k st = Throw).
Proof.
  intros lsq e m k st. unfold gmres. assert (K3 : krylov_start = 3%nat) by reflexivity. rewrite K3. split; intros N.
  - destruct (Nat.leb_spec (3 + m) (n_vecs e)); [|lia]. induction k as [|k (st' & IH)]; [exists st; reflexivity|].
    rewrite loopn_S, IH. cbn [bind]. apply cycle_total. lia.
  - destruct (Nat.leb_spec (3 + m) (n_vecs e)); [lia|reflexivity].
Qed.
Print Assumptions gmres_storage_partial.

(** ** BiCGStab *)

(** The stored residual is the residual of the current solution, and the last step is the best one along its direction;
    the right-hand side is kept. *)
Theorem bicgstab_residual : forall n e k st b x,
  linear_equation n e -> (8 <= n_vecs e)%nat -> st 0%nat = Some x -> st 1%nat = Some b ->
  exists st', bicgstab e k st = Ok st' /\ st' 1%nat = Some b
    /\ forall x', st' 0%nat = Some x' ->
       (exists r, st' 2%nat = Some r /\ same n r (residual e b x'))
       /\ (exists ref, st' 5%nat = Some ref /\ same n ref (residual e b x))
       /\ ((0 < k)%nat -> exists s, st' 4%nat = Some s /\ minimal_step n e b (residual e b x) x' s).
Proof.
  intros n e k st b x OK N X B. destruct (bicg_run n e OK st b x N X B k) as (st' & E & B' & H). exists st'. split; auto. split; auto.
  intros x' X'. destruct H as [H|(x1 & r & ref & X1 & R & Er & Rf & Erf & M & _)]; [congruence|].
  assert (x1 = x') by congruence. subst x1. split; [exists r; auto|]. split; [exists ref; auto|exact M].
Qed.
Print Assumptions bicgstab_residual.

(** Eight vectors are enough, whatever they contain, and fewer are refused. *)
Theorem bicgstab_storage : forall e k st,
  ((8 <= n_vecs e)%nat -> exists st', bicgstab e k st = Ok st')
  /\ ((n_vecs e < 8)%nat -> bicgstab e k st = Throw).
Proof.
  intros e k st. unfold bicgstab. split; intros N.
  - destruct (Nat.leb_spec 8 (n_vecs e)); [|lia]. destruct (start_total e N st) as (st0 & ->). cbn [bind].
    induction k as [|k (st' & IH)]; [exists st0; reflexivity|]. rewrite loopn_S, IH. cbn [bind].
    destruct (pass_eq e N st') as (st2 & E2 & _). exists st2. exact E2.
  - destruct (Nat.leb_spec 8 (n_vecs e)); [lia|reflexivity].
Qed.
Print Assumptions bicgstab_storage.

(** ** A solution that has been reached is lost *)

(** Neither solver stops when the equation is solved: both divide by the norm of a zero residual. In exact arithmetic, GMRES
    gives a vector that is not finite for every equation that is already solved, and BiCGStab for every equation when it
    makes more iterations than there are dimensions. *)
Theorem solved_stays_refuted :
  (forall n e lsq m st b x, linear_equation n e -> (S m + 4 <= n_vecs e)%nat -> least_squares (S m) (lsq (S m)) ->
     st 0%nat = Some x -> st 1%nat = Some b -> solves n e b x ->
     exists st', gmres lsq e (S m) 1 st = Ok st' /\ st' 0%nat = None)
  /\ (forall n e k st b x, linear_equation n e -> (8 <= n_vecs e)%nat ->
     st 0%nat = Some x -> st 1%nat = Some b -> (n < k)%nat ->
     exists st', bicgstab e k st = Ok st' /\ st' 0%nat = None).
Proof.
  split.
  - intros n e lsq m st b x OK N LS X B So. destruct (gmres_run n e OK lsq (S m) st b x N LS X B 1) as (st' & E & _ & H).
    exists st'. split; auto. destruct (st' 0%nat) as [x'|]; auto. exfalso. destruct (H x' eq_refl) as (xs & H0 & H1 & Hs).
    destruct (Hs 0%nat ltac:(lia)) as (_ & In). rewrite H0 in In. revert In. apply solved_dependent; auto. lia.
  - intros n e k st b x OK N X B K. destruct (bicg_run n e OK st b x N X B k) as (st' & E & B' & H). exists st'. split; auto.
    destruct H as [H|(x1 & r & ref & X1 & R & Er & Rf & Erf & M & Kn & _)]; auto. lia.
Qed.
Print Assumptions solved_stays_refuted.

(** What is true: a restart of GMRES gives a finite solution exactly when the [m] vectors of its Krylov space are independent. *)
Theorem solved_stays_partial : forall n e lsq m st b x,
  linear_equation n e -> (m + 4 <= n_vecs e)%nat -> least_squares m (lsq m) ->
  st 0%nat = Some x -> st 1%nat = Some b ->
  exists st', gmres lsq e m 1 st = Ok st'
    /\ (st' 0%nat <> None <-> independent n m (power e (residual e b x))).
Proof.
  intros n e lsq m st b x OK N LS X B. assert (K3 : krylov_start = 3%nat) by reflexivity.
  destruct (cycle_ok n e OK lsq m st b x) as (st' & E & B' & C); auto; [lia|].
  exists st'. split.
  - unfold gmres. destruct (Nat.leb_spec (krylov_start + m) (n_vecs e)); [|lia]. cbn [loopn bind]. exact E.
  - destruct C as [(x' & X' & _ & In)|(X' & NI)].
    + split; auto. intros _. congruence.
    + split; [contradiction|]. intros In. contradiction.
Qed.
Print Assumptions solved_stays_partial.

(** ** The interface *)

(** The dense equation, and the equation with a weighted inner product, are linear equations; [add] and [scale] may have any of
    their inputs as output, and change only the output vector. *)
Theorem equation_interface :
  (forall n nv mat rhs guess e st, dense_equation n nv mat rhs guess = Ok (e, st) ->
     linear_equation n e /\ n_vecs e = nv /\ st 0%nat = Some guess /\ st 1%nat = Some rhs)
  /\ (forall n nv mat w, (forall i, (i < n)%nat -> 0 < w i) ->
     linear_equation n {| n_vecs := nv; op := dense_op n mat; ip := weighted_ip n w |})
  /\ (forall n out c0 v0 c1 v1 m,
     (forall i j, j <> out -> dense_add n out c0 v0 c1 v1 m i j = m i j)
     /\ same n (fun i => dense_add n out c0 v0 c1 v1 m i out) (lin c0 (fun i => m i v0) c1 (fun i => m i v1)))
  /\ (forall n out inp c m,
     (forall i j, j <> out -> dense_scale n out inp c m i j = m i j)
     /\ same n (fun i => dense_scale n out inp c m i out) (scl c (fun i => m i inp))).
Proof.
  split; [|split; [|split]].
  - intros n nv mat rhs guess e st E. unfold dense_equation in E. destruct (2 <=? nv); [|discriminate]. injection E as <- <-.
    split; [apply dense_linear|]. repeat split; reflexivity.
  - apply weighted_equation.
  - intros n out c0 v0 c1 v1 m. split.
    + intros i j H. rewrite dense_add_eq. apply Nat.eqb_neq in H. now rewrite H, andb_false_r.
    + intros i Hi. rewrite dense_add_eq, Nat.eqb_refl. apply Nat.ltb_lt in Hi. now rewrite Hi.
  - intros n out inp c m. split.
    + intros i j H. rewrite dense_scale_eq. apply Nat.eqb_neq in H. now rewrite H, andb_false_r.
    + intros i Hi. rewrite dense_scale_eq, Nat.eqb_refl. apply Nat.ltb_lt in Hi. now rewrite Hi.
Qed.
Print Assumptions equation_interface.

(** ** Examples *)

(** A least-squares solver exists for every number of unknowns. *)
Example least_squares_example : forall m, least_squares m (lsq_normal m).
Proof. exact lsq_normal_ok. Qed.

(** The equation [x + y = 3, y = 1] from the guess 0: GMRES with two vectors finds (2, 1). *)
Definition ex_mat (i j : nat) : R := match i, j with O, O => 1 | O, _ => 1 | S O, S O => 1 | _, _ => 0 end.
Definition ex_rhs : vec := fun i => match i with O => 3 | _ => 1 end.

Example gmres_example : forall e st, dense_equation 2 6 ex_mat ex_rhs zero = Ok (e, st) ->
  exists st' x, gmres lsq_normal e 2 1 st = Ok st' /\ st' 0%nat = Some x /\ x 0%nat = 2 /\ x 1%nat = 1.
Proof.
  intros e st E. destruct (proj1 equation_interface _ _ _ _ _ _ _ E) as (OK & N & X & B).
  assert (Oe : op e = dense_op 2 ex_mat) by (unfold dense_equation in E; cbn in E; injection E as <- _; reflexivity).
  destruct (solved_stays_partial 2 e lsq_normal 2 st ex_rhs zero) as (st' & E' & F); auto; [lia|apply lsq_normal_ok|].
  assert (In : independent 2 2 (power e (residual e ex_rhs zero))).
  { intros c H j Hj. pose proof (H 0%nat ltac:(lia)) as H0. pose proof (H 1%nat ltac:(lia)) as H1.
    unfold comb in H0, H1. cbn [rsum power] in H0, H1. unfold residual in H0, H1. rewrite Oe in H0, H1.
    unfold dense_op, lin, zero, ex_mat, ex_rhs in H0, H1. cbn [rsum] in H0, H1.
    assert (c 0%nat = 0 /\ c 1%nat = 0) as (Z0 & Z1) by (split; lra). destruct j as [|[|j]]; auto; lia. }
  apply F in In. destruct (st' 0%nat) as [x|] eqn:X'; [|contradiction]. exists st', x. split; auto. split; auto.
  assert (So : solves 2 e ex_rhs x).
  { eapply (gmres_exact 2 e lsq_normal 0 st st' ex_rhs zero x); eauto; [|lia|apply lsq_normal_ok].
    intros b. exists (fun i => match i with O => b 0%nat - b 1%nat | _ => b 1%nat end). intros i Hi. rewrite Oe.
    destruct i as [|[|i]]; [| |lia]; unfold dense_op, ex_mat; cbn [rsum]; lra. }
  pose proof (So 0%nat ltac:(lia)) as H0. pose proof (So 1%nat ltac:(lia)) as H1. rewrite Oe in H0, H1.
  unfold dense_op, ex_mat, ex_rhs in H0, H1. cbn [rsum] in H0, H1. split; lra.
Qed.

(** The equation [2 x = 6] from the guess 0: the first half step of BiCGStab is exact, so that the step size of the second half
    is 0/0 and the solution is lost. *)
Example bicgstab_example : forall e st, dense_equation 1 8 (fun _ _ => 2) (fun _ => 6) zero = Ok (e, st) ->
  exists st', bicgstab e 1 st = Ok st' /\ st' 0%nat = None.
Proof.
  intros e st E. destruct (proj1 equation_interface _ _ _ _ _ _ _ E) as (OK & N & X & B).
  assert (N8 : (8 <= n_vecs e)%nat) by lia.
  assert (Ee : op e = dense_op 1 (fun _ _ => 2) /\ ip e = dense_ip 1) by (unfold dense_equation in E; cbn in E; injection E as <- _; auto).
  destruct Ee as (Oe & Ie).
  unfold bicgstab. rewrite N. cbn [Nat.leb]. destruct (start_ok e N8 st zero (fun _ => 6) X B) as (st0 & E0 & X0 & B0 & R0 & P0 & Rf0).
  rewrite E0. cbn [bind loopn]. destruct (pass_eq e N8 st0) as (st' & E' & _). exists st'. split; [exact E'|].
  destruct (st' 0%nat) eqn:F; auto. exfalso.
  destruct (pass_finite e N8 st0 st' _ _ _ _ E' X0 R0 P0 Rf0) as (_ & Z & _); [congruence|].
  apply Z. rewrite Ie, Oe. unfold dense_ip, dense_op, scl, lin, zero. cbn [rsum]. field_simplify; lra.
Qed.
