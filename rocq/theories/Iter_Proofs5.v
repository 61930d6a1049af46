(** Proofs about the iterative solvers: whole runs; least squares; the dense equation. *)
From Coq Require Import Reals Arith Lia Lra Psatz List Bool Setoid Morphisms FunctionalExtensionality.
From Verif Require Import Outcome RSum Iter_Model Iter_Spec Iter_Proofs Iter_Proofs2 Iter_Proofs3 Iter_Proofs4.
Open Scope R_scope.

Section Equation.
  Variables (n : nat) (e : lineq).
  Hypothesis OK : linear_equation n e.

  #[local] Instance op_proper' : Proper (same n ==> same n) (op e) := op_proper n e OK.
  #[local] Instance ip_proper' : Proper (same n ==> same n ==> eq) (ip e) := ip_proper n e OK.
  #[local] Instance residual_proper' : Proper (same n ==> same n ==> same n) (residual e) := residual_proper n e OK.
  #[local] Instance sqnorm_proper' : Proper (same n ==> eq) (sqnorm e) := sqnorm_proper n e OK.

  Notation ks := krylov_start.

  (** ** GMRES *)

  Lemma gmres_run lsq m st b x :
    (m + 4 <= n_vecs e)%nat -> least_squares m (lsq m) -> st 0%nat = Some x -> st 1%nat = Some b ->
    forall k, exists st', gmres lsq e m k st = Ok st' /\ st' 1%nat = Some b
      /\ forall x', st' 0%nat = Some x' ->
         exists xs, xs 0%nat = x /\ xs k = x'
           /\ forall i, (i < k)%nat -> krylov_optimal n e m b (xs i) (xs (S i))
                                     /\ independent n m (power e (residual e b (xs i))).
  Proof.
    intros N LS X B. unfold gmres. assert (K3 : ks = 3%nat) by reflexivity.
    destruct (Nat.leb_spec (ks + m) (n_vecs e)); [|lia].
    induction k as [|k (st' & E & B' & I)].
    - exists st. cbn [loopn]. split; [reflexivity|]. split; auto. intros x' Hx. exists (fun _ => x). split; auto.
      split; [congruence|]. intros i Hi. lia.
    - rewrite loopn_S, E. cbn [bind]. destruct (st' 0%nat) as [x1|] eqn:X1.
      + destruct (cycle_ok n e OK lsq m st' b x1) as (st2 & E2 & B2 & C); auto; [lia|].
        exists st2. split; [exact E2|]. split; auto. intros x' Hx. destruct C as [(x2 & X2 & KO & In)|(X2 & _)]; [|congruence].
        assert (x2 = x') by congruence. subst x2. destruct (I x1 eq_refl) as (xs & Xs0 & Xsk & Xs).
        exists (fun i => if i =? S k then x' else xs i). split; [cbn; auto|]. split; [now rewrite Nat.eqb_refl|].
        intros i Hi. destruct (Nat.eqb_spec i (S k)); [lia|]. destruct (Nat.eqb_spec (S i) (S k)) as [Ei|Ei].
        * assert (i = k) by lia. subst i. rewrite Xsk. auto.
        * apply Xs. lia.
      + destruct (cycle_nan e lsq m st') as (st2 & E2 & X2 & B2); auto; [lia|].
        exists st2. split; [exact E2|]. split; [congruence|]. intros x' Hx. congruence.
  Qed.

  Lemma optimal_le m b x x' : krylov_optimal n e m b x x' -> sqnorm e (residual e b x') <= sqnorm e (residual e b x).
  Proof.
    intros (_ & H). eapply Rle_trans; [apply (H (fun _ => 0))|]. apply Req_le. apply sqnorm_proper'.
    apply residual_proper'; [reflexivity|]. intros i Hi. unfold lin, comb. rewrite (rsum_ext _ _ (fun _ => 0)), rsum_0; [lra|].
    intros. lra.
  Qed.

  Lemma optimal_exact b x x' : onto n e -> krylov_optimal n e n b x x' -> independent n n (power e (residual e b x)) -> solves n e b x'.
  Proof.
    intros On (_ & H) In. destruct (On b) as (y & Hy). unfold solves in Hy.
    destruct (independent_spans n _ (lin 1 y (-1) x) In) as (c & Hc).
    assert (Z : sqnorm e (residual e b x') = 0).
    { apply Rle_antisym; [|apply (ip_positive n e OK)]. eapply Rle_trans; [apply (H c)|]. rewrite <- Hc.
      assert (Ey : same n (lin 1 x 1 (lin 1 y (-1) x)) y) by (intros i Hi; unfold lin; lra). rewrite Ey. unfold residual.
      apply Req_le. assert (Ez : same n (lin 1 b (-1) (op e y)) zero).
      { rewrite Hy. intros i Hi. unfold lin, zero. lra. }
      rewrite Ez. apply (ip_zero_l n e OK). }
    apply (ip_definite n e OK) in Z. intros i Hi. specialize (Z i Hi). unfold residual, lin, zero in Z. lra.
  Qed.

  Lemma solved_dependent m b x : (0 < m)%nat -> solves n e b x -> ~ independent n m (power e (residual e b x)).
  Proof.
    intros Hm So In.
    assert (Z : 1 = 0); [|lra]. apply (independent_mono n 1 m _ ltac:(lia)) in In.
    apply (In (fun _ => 1)) with (j := 0%nat); [|lia]. intros i Hi. unfold comb. cbn. unfold residual, lin, zero.
    rewrite (So i Hi). lra.
  Qed.

  (** ** BiCGStab *)

  Lemma bicg_step b ref k st x r p ref' st' :
    (8 <= n_vecs e)%nat ->
    st 1%nat = Some b -> st 0%nat = Some x -> st i_r = Some r -> same n r (residual e b x) ->
    st i_ref = Some ref' -> same n ref' ref -> st i_p = Some p -> biorth n e k ref' r p -> 
    bicgstab_pass e st = Ok st' -> st' 0%nat <> None ->
    exists x' r' s, st' 0%nat = Some x' /\ st' 1%nat = Some b /\ st' i_r = Some r' /\ same n r' (residual e b x')
      /\ st' i_ref = Some ref' /\ st' i_s = Some s /\ minimal_step n e b ref x' s
      /\ (st' i_p = None \/ exists p', st' i_p = Some p' /\ biorth n e (S k) ref' r' p' /\ (S k < n \/ n = 0)%nat).
  Proof.
    intros N B X Er Rr Eref Rref Ep BO E F.
    destruct (pass_finite e N st st' x r p ref' E X Er Ep Eref F) as (Zd & Zs & H0 & H1 & Hr & Hs & Href & Hp).
    set (alpha := ip e r ref' / ip e (op e p) ref') in *. set (s := lin 1 r (- alpha) (op e p)) in *.
    set (omega := ip e (op e s) s / ip e (op e s) (op e s)) in *.
    set (r' := lin 1 s (- omega) (op e s)) in *.
    set (beta := ip e r' ref' / ip e r ref' * alpha / omega) in *.
    set (y := lin 1 x alpha p) in *. set (x' := lin 1 y omega s) in *.
    assert (Ey : same n s (residual e b y)).
    { unfold s, y. rewrite Rr. unfold residual. rewrite (op_linear n e OK). intros i Hi. unfold lin. ring. }
    assert (Et : forall t, same n (residual e b (lin 1 y t s)) (lin 1 s (- t) (op e s))).
    { intros t. unfold residual. rewrite (op_linear n e OK). intros i Hi. unfold lin.
      rewrite (Ey i Hi). unfold residual, lin. ring. }
    exists x', r', s. split; [exact H0|]. split; [congruence|]. split; [exact Hr|]. split; [symmetry; apply Et|].
    split; [exact Href|]. split; [exact Hs|]. split.
    - exists y, omega. split; [exact Ey|]. split; [|split; [reflexivity|]].
      + rewrite <- Rref. unfold s. rewrite (ip_linear n e OK). unfold alpha. field. auto.
      + intros t. unfold x'. rewrite 2 Et. unfold sqnorm.
        assert (Q : forall t, ip e (lin 1 s (- t) (op e s)) (lin 1 s (- t) (op e s))
                   = ip e s s - 2 * t * ip e (op e s) s + t * t * ip e (op e s) (op e s)).
        { intros t'. rewrite (ip_linear n e OK), 2 (ip_lin_r n e OK), (ip_symmetric n e OK s (op e s)). ring. }
        rewrite 2 Q. pose proof (ip_positive n e OK (op e s)) as Pd.
        set (D := ip e (op e s) (op e s)) in *. set (C := ip e (op e s) s) in *.
        assert (EC : C = omega * D) by (unfold omega; field; auto). rewrite EC.
        assert (0 <= D * (t - omega) ^ 2) by (apply Rmult_le_pos; [auto|apply pow2_ge_0]). nra.
    - destruct Hp as [Hp|(Zr & Zo & Hp)]; [now left|]. right. eexists. split; [exact Hp|].
      exact (biorth_step n e OK k ref' r p BO N Zd Zs Zr Zo).
  Qed.

  Definition bicg_state (b ref : vec) (k : nat) (st : store) : Prop :=
    st 1%nat = Some b /\ (st 0%nat = None \/ exists x r ref', st 0%nat = Some x /\ st i_r = Some r /\ same n r (residual e b x)
      /\ st i_ref = Some ref' /\ same n ref' ref
      /\ ((0 < k)%nat -> exists s, st i_s = Some s /\ minimal_step n e b ref x s)
      /\ (k <= n)%nat
      /\ (st i_p = None \/ exists p, st i_p = Some p /\ biorth n e k ref' r p /\ (k < n \/ k = 0)%nat)).

  Lemma bicg_run st b x : (8 <= n_vecs e)%nat -> st 0%nat = Some x -> st 1%nat = Some b ->
    forall k, exists st', bicgstab e k st = Ok st' /\ bicg_state b (residual e b x) k st'.
  Proof.
    intros N X B. unfold bicgstab. destruct (Nat.leb_spec 8 (n_vecs e)); [|lia].
    destruct (start_ok e N st x b X B) as (st0 & E0 & X0 & B0 & R0 & P0 & Rf0). rewrite E0. cbn [bind].
    set (r := lin (-1) (op e x) 1 b) in *.
    assert (Er : same n r (residual e b x)) by (intros i Hi; unfold r, residual, lin; ring).
    assert (Es : same n (scl 1 r) (residual e b x)) by (rewrite <- Er; intros i Hi; unfold scl; lra).
    induction k as [|k (st' & E & B' & I)].
    - exists st0. cbn [loopn]. split; [reflexivity|]. split; auto. right. exists x, r, (scl 1 r). split; auto. split; auto. split; auto. split; auto. split; auto. split; [lia|]. split; [lia|]. right. eexists. split; [exact P0|].
      split; [|now right]. constructor. exists nil, r, (scl 1 r), (fun _ => zero). repeat split; auto; try (intros; lia); reflexivity.
    - rewrite loopn_S, E. cbn [bind]. destruct I as [I|(x1 & r1 & ref1 & X1 & R1 & Er1 & Rf1 & Erf1 & _ & Kn & P1)].
      + destruct (pass_nan e N st') as (st2 & E2 & B2 & X2); auto. exists st2. split; auto. split; [congruence|]. now left.
      + destruct P1 as [P1|(p & P1 & BO & K)].
        * destruct (pass_nan e N st') as (st2 & E2 & B2 & X2); auto. exists st2. split; auto. split; [congruence|]. now left.
        * destruct (pass_eq e N st') as (st2 & E2 & B2 & _). exists st2. split; auto. split; [congruence|].
          destruct (st2 0%nat) as [x2|] eqn:X2; [|now left]. right.
          destruct (bicg_step b (residual e b x) k st' x1 r1 p ref1 st2) as (x' & r' & s & X' & B3 & R' & Er' & Rf' & S' & M & P'); auto.
          { congruence. }
          assert (x' = x2) by congruence. subst x'.
          assert (Kn' : (S k <= n)%nat).
          { destruct (Nat.eq_dec n 0) as [En|En]; [|lia]. exfalso.
            destruct (pass_finite e N st' st2 x1 r1 p ref1) as (Zd & _); auto; [congruence|]. apply Zd.
            rewrite <- (ip_zero_l n e OK ref1). apply ip_proper'; [|reflexivity]. intros i Hi. lia. }
          exists x2, r', ref1. repeat (split; [solve [auto]|]). split; [intros _; exists s; auto|]. split; [auto|].
          destruct P' as [P'|(p' & P' & BO' & K')]; [now left|]. right. exists p'. split; auto. split; auto. lia.
  Qed.
End Equation.

(** ** Least squares *)

Section Normal.
  Variable rows : nat.
  Definition dot (x y : vec) : R := rsum rows (fun i => x i * y i).

  Lemma dot_lin a x b y z : dot (lin a x b y) z = a * dot x z + b * dot y z.
  Proof. unfold dot, lin. rewrite <- 2 rsum_scal, <- rsum_plus. apply rsum_ext. intros. lra. Qed.
  Lemma dot_sym x y : dot x y = dot y x.
  Proof. unfold dot. apply rsum_ext. intros. lra. Qed.
  Lemma dot_pos x : 0 <= dot x x.
  Proof. unfold dot. apply rsum_nonneg. intros. nra. Qed.
  Lemma dot_comb m c v z : dot (comb m c v) z = rsum m (fun j => c j * dot (v j) z).
  Proof.
    induction m as [|m IH].
    - unfold dot, comb. cbn [rsum]. rewrite (rsum_ext _ _ (fun _ => 0)), rsum_0; auto. intros; lra.
    - rewrite comb_S, dot_lin, IH. cbn [rsum]. lra.
  Qed.

  (** Solutions of the normal equations. *)
  Lemma normal m (v : nat -> vec) : forall g, {y | forall j, (j < m)%nat -> dot (lin 1 g (-1) (comb m y v)) (v j) = 0}.
  Proof.
    induction m as [|m IH]; intros g.
    - exists (fun _ => 0). intros j Hj. lia.
    - destruct (IH (v m)) as (a & Ha). destruct (IH g) as (c & Hc).
      set (h' := lin 1 (v m) (-1) (comb m a v)) in *. set (g' := lin 1 g (-1) (comb m c v)) in *.
      set (t := if Req_EM_T (dot h' h') 0 then 0 else dot g' h' / dot h' h').
      exists (fun j => if j =? m then t else c j - t * a j).
      assert (Eg : lin 1 g (-1) (comb (S m) (fun j => if j =? m then t else c j - t * a j) v) = lin 1 g' (- t) h').
      { apply functional_extensionality. intros i. rewrite comb_S, Nat.eqb_refl. unfold g', h', lin, comb.
        rewrite (rsum_ext m _ (fun j => c j * v j i + - t * (a j * v j i))).
        - rewrite rsum_plus, rsum_scal. ring.
        - intros j Hj. destruct (Nat.eqb_spec j m); [lia|]. ring. }
      rewrite Eg.
      assert (Lo : forall j, (j < m)%nat -> dot (lin 1 g' (- t) h') (v j) = 0).
      { intros j Hj. rewrite dot_lin, Hc, Ha by auto. lra. }
      intros j Hj. destruct (Nat.eq_dec j m) as [->|Ej]; [|apply Lo; lia].
      assert (Ev : v m = lin 1 h' 1 (comb m a v)).
      { apply functional_extensionality. intros i. unfold h', lin. lra. }
      rewrite Ev, dot_sym, dot_lin, dot_comb.
      rewrite (rsum_ext _ _ (fun _ => 0)), rsum_0; [|intros k Hk; rewrite dot_sym, Lo by auto; lra].
      rewrite dot_sym, dot_lin. unfold t. destruct (Req_EM_T (dot h' h') 0) as [Z|Z].
      + assert (Zh : dot g' h' = 0).
        { unfold dot in Z. unfold dot. rewrite (rsum_ext _ _ (fun _ => 0)), rsum_0; auto. intros i Hi.
          pose proof (rsum_eq_0 _ _ (fun i _ => Rle_0_sqr (h' i)) Z i Hi) as Q. cbn beta in Q.
          assert (h' i = 0) by (apply Rmult_integral in Q; tauto). rewrite H. lra. }
        rewrite Zh, Z. lra.
      + field. auto.
  Qed.
End Normal.

Lemma normal_minimal rows m v g y :
  (forall j, (j < m)%nat -> dot rows (lin 1 g (-1) (comb m y v)) (v j) = 0) ->
  forall z, dot rows (lin 1 g (-1) (comb m y v)) (lin 1 g (-1) (comb m y v))
         <= dot rows (lin 1 g (-1) (comb m z v)) (lin 1 g (-1) (comb m z v)).
Proof.
  intros H z. set (r := lin 1 g (-1) (comb m y v)) in *.
  set (d := comb m (fun j => 1 * y j + (-1) * z j) v).
  assert (E : lin 1 g (-1) (comb m z v) = lin 1 r 1 d).
  { apply functional_extensionality. intros i. unfold d. rewrite comb_lin. unfold r, lin. lra. }
  assert (Z : dot rows d r = 0).
  { unfold d. rewrite dot_comb, (rsum_ext _ _ (fun _ => 0)), rsum_0; auto. intros j Hj. rewrite dot_sym, H by auto. lra. }
  rewrite E, dot_lin, (dot_sym rows r (lin 1 r 1 d)), (dot_sym rows d (lin 1 r 1 d)), 2 dot_lin, Z, (dot_sym rows r d), Z.
  pose proof (dot_pos rows d). lra.
Qed.

(** There is a least-squares solver. *)
Definition lsq_normal (m : nat) (h : nat -> nat -> R) (g : nat -> R) : nat -> R :=
  proj1_sig (normal (m + 1) m (fun j i => h i j) g).

Lemma lsq_normal_ok m : least_squares m (lsq_normal m).
Proof.
  intros h g y.
  assert (E : forall y, rsum (m + 1) (fun i => (rsum m (fun j => h i j * y j) - g i) ^ 2)
     = dot (m + 1) (lin 1 g (-1) (comb m y (fun j i => h i j))) (lin 1 g (-1) (comb m y (fun j i => h i j)))).
  { intros y'. unfold dot. apply rsum_ext. intros i Hi. unfold lin, comb.
    rewrite (rsum_ext m (fun j => h i j * y' j) (fun j => y' j * h i j)) by (intros; lra). ring. }
  rewrite 2 E. apply normal_minimal. unfold lsq_normal.
  destruct (normal (m + 1) m (fun j i => h i j) g) as (y' & Hy). exact Hy.
Qed.

(** ** The dense equation *)

Lemma weighted_equation n nv mat w : (forall i, (i < n)%nat -> 0 < w i) ->
  linear_equation n {| n_vecs := nv; op := dense_op n mat; ip := weighted_ip n w |}.
Proof.
  intros W. constructor; cbn [op ip].
  - intros a x b y i Hi. unfold dense_op, lin. rewrite <- 2 rsum_scal, <- rsum_plus. apply rsum_ext. intros. lra.
  - intros x y H i Hi. unfold dense_op. apply rsum_ext. intros j Hj. now rewrite H.
  - intros a x b y z. unfold weighted_ip, lin. rewrite <- 2 rsum_scal, <- rsum_plus. apply rsum_ext. intros. lra.
  - intros x y. unfold weighted_ip. apply rsum_ext. intros. lra.
  - intros x y z H. unfold weighted_ip. apply rsum_ext. intros i Hi. now rewrite H.
  - intros x. unfold weighted_ip. apply rsum_nonneg. intros i Hi. specialize (W i Hi).
    replace (x i * w i * x i) with (w i * Rsqr (x i)) by (unfold Rsqr; ring). apply Rmult_le_pos; [lra|apply Rle_0_sqr].
  - intros x Z i Hi. unfold weighted_ip in Z.
    assert (P : forall i, (i < n)%nat -> 0 <= x i * w i * x i).
    { intros k Hk. specialize (W k Hk).
      replace (x k * w k * x k) with (w k * Rsqr (x k)) by (unfold Rsqr; ring). apply Rmult_le_pos; [lra|apply Rle_0_sqr]. }
    pose proof (rsum_eq_0 _ _ P Z i Hi) as Q. cbn beta in Q. specialize (W i Hi). unfold zero.
    apply Rmult_integral in Q. destruct Q as [Q|Q]; auto. apply Rmult_integral in Q. destruct Q; auto. lra.
Qed.

Lemma dense_weighted n x y : dense_ip n x y = weighted_ip n (fun _ => 1) x y.
Proof. unfold dense_ip, weighted_ip. apply rsum_ext. intros. lra. Qed.

Lemma dense_linear n nv mat : linear_equation n {| n_vecs := nv; op := dense_op n mat; ip := dense_ip n |}.
Proof.
  pose proof (weighted_equation n nv mat (fun _ => 1) (fun _ _ => Rlt_0_1)) as [a b c d f g h]. cbn [op ip] in *.
  constructor; cbn [op ip]; auto.
  - intros. rewrite !dense_weighted. auto.
  - intros. rewrite !dense_weighted. auto.
  - intros. rewrite !dense_weighted. auto.
  - intros. rewrite !dense_weighted. auto.
  - intros x. rewrite !dense_weighted. auto.
Qed.

Lemma dense_add_eq n out c0 v0 c1 v1 m i j :
  dense_add n out c0 v0 c1 v1 m i j = if andb (i <? n) (j =? out) then c0 * m i v0 + c1 * m i v1 else m i j.
Proof.
  unfold dense_add.
  match goal with |- ?g n m i j = _ => set (go := g) end.
  assert (G : forall k i j, go k m i j = if andb (i <? k) (j =? out) then c0 * m i v0 + c1 * m i v1 else m i j).
  { induction k as [|k IH]; intros i' j'.
    - reflexivity.
    - change (go (S k) m i' j') with (if andb (i' =? k) (j' =? out) then c0 * go k m k v0 + c1 * go k m k v1 else go k m i' j').
      rewrite !IH. destruct (Nat.ltb_spec k k); [lia|]. cbn [andb].
      destruct (Nat.eqb_spec i' k) as [->|E]; cbn [andb].
      + destruct (Nat.ltb_spec k k); [lia|]. destruct (Nat.ltb_spec k (S k)); [|lia]. cbn [andb]. destruct (j' =? out); reflexivity.
      + destruct (Nat.ltb_spec i' k), (Nat.ltb_spec i' (S k)); try lia; reflexivity. }
  apply G.
Qed.

Lemma dense_scale_eq n out inp c m i j :
  dense_scale n out inp c m i j = if andb (i <? n) (j =? out) then c * m i inp else m i j.
Proof.
  unfold dense_scale.
  match goal with |- ?g n m i j = _ => set (go := g) end.
  assert (G : forall k i j, go k m i j = if andb (i <? k) (j =? out) then c * m i inp else m i j).
  { induction k as [|k IH]; intros i' j'.
    - reflexivity.
    - change (go (S k) m i' j') with (if andb (i' =? k) (j' =? out) then c * go k m k inp else go k m i' j').
      rewrite !IH. destruct (Nat.ltb_spec k k); [lia|]. cbn [andb].
      destruct (Nat.eqb_spec i' k) as [->|E]; cbn [andb].
      + destruct (Nat.ltb_spec k k); [lia|]. destruct (Nat.ltb_spec k (S k)); [|lia]. cbn [andb]. destruct (j' =? out); reflexivity.
      + destruct (Nat.ltb_spec i' k), (Nat.ltb_spec i' (S k)); try lia; reflexivity. }
  apply G.
Qed.
