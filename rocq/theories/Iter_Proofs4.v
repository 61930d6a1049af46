(** Proofs about BiCGStab and about the dense equation. *)
From Coq Require Import Reals Arith Lia Lra Psatz List Bool Setoid Morphisms FunctionalExtensionality.
From Verif Require Import Outcome RSum Iter_Model Iter_Spec Iter_Proofs Iter_Proofs2 Iter_Proofs3.
Open Scope R_scope.

Lemma ddiv_0 a b : b = 0 -> ddiv (Some a) (Some b) = None.
Proof. intros Z. cbn. destruct (Req_EM_T b 0); [reflexivity|contradiction]. Qed.
Lemma ddiv_eq a b : b <> 0 -> ddiv (Some a) (Some b) = Some (a / b).
Proof. intros Z. cbn. destruct (Req_EM_T b 0); [contradiction|reflexivity]. Qed.

Section Pass.
  Variable e : lineq.
  Hypothesis N : (8 <= n_vecs e)%nat.

  Lemma start_ok st x b : st 0%nat = Some x -> st 1%nat = Some b ->
    let r := lin (-1) (op e x) 1 b in
    exists st', bicgstab_start e st = Ok st' /\ st' 0%nat = Some x /\ st' 1%nat = Some b
      /\ st' i_r = Some r /\ st' i_p = Some (scl 1 r) /\ st' i_ref = Some (scl 1 r).
  Proof.
    intros X B r. unfold bicgstab_start, e_matvec.
    unfold e_add, e_scale. repeat (rewrite !within_ok by (unfold i_r, i_p, i_s, i_ref, i_Ap, i_As; lia); cbn [bind]).
    eexists. split; [reflexivity|].
    unfold i_r, i_p, i_s, i_ref, i_Ap, i_As, put; cbn [Nat.eqb]. rewrite X, B. cbn [option_map]. repeat split; reflexivity.
  Qed.

  Lemma start_nan st : st 0%nat = None -> exists st', bicgstab_start e st = Ok st' /\ st' 0%nat = None /\ st' 1%nat = st 1%nat.
  Proof.
    intros X. unfold bicgstab_start, e_matvec.
    unfold e_add, e_scale. repeat (rewrite !within_ok by (unfold i_r, i_p, i_s, i_ref, i_Ap, i_As; lia); cbn [bind]).
    eexists. split; [reflexivity|].
    unfold i_r, i_p, i_s, i_ref, i_Ap, i_As, put; cbn [Nat.eqb]. rewrite X. split; reflexivity.
  Qed.

  Lemma start_total st : exists st', bicgstab_start e st = Ok st'.
  Proof.
    unfold bicgstab_start, e_matvec.
    unfold e_add, e_scale. repeat (rewrite !within_ok by (unfold i_r, i_p, i_s, i_ref, i_Ap, i_As; lia); cbn [bind]).
    eexists. reflexivity.
  Qed.

  (** The state after one pass, in full. *)
  Lemma pass_eq st : exists st', bicgstab_pass e st = Ok st' /\
    st' 1%nat = st 1%nat /\ st' i_ref = st i_ref /\
    let inner x y := match x, y with Some x, Some y => Some (ip e x y) | _, _ => None end in
    let add a x b y := match a, x, b, y with Some a, Some x, Some b, Some y => Some (lin a x b y) | _, _, _, _ => None end in
    let Ap := option_map (op e) (st i_p) in
    let rho := inner (st i_r) (st i_ref) in
    let alpha := ddiv rho (inner Ap (st i_ref)) in
    let s := add (Some 1) (st i_r) (dopp alpha) Ap in
    let As := option_map (op e) s in
    let omega := ddiv (inner As s) (inner As As) in
    let r' := add (Some 1) s (dopp omega) As in
    let beta := ddiv (dmul (ddiv (inner r' (st i_ref)) rho) alpha) omega in
    st' 0%nat = add (Some 1) (add (Some 1) (st 0%nat) alpha (st i_p)) omega s
    /\ st' i_r = r' /\ st' i_s = s
    /\ st' i_p = add (Some 1) (add (Some 1) r' beta (st i_p)) (dmul (dopp beta) omega) Ap.
  Proof.
    unfold bicgstab_pass, e_inner, e_matvec, e_add.
    repeat (rewrite !within_ok by (unfold i_r, i_p, i_s, i_ref, i_Ap, i_As; lia); cbn [bind]).
    eexists. split; [reflexivity|].
    unfold i_r, i_p, i_s, i_ref, i_Ap, i_As, put; cbn [Nat.eqb].
    split; [reflexivity|]. split; [reflexivity|]. cbv zeta.
    split; [reflexivity|]. split; [reflexivity|]. split; reflexivity.
  Qed.

  Lemma pass_nan st : st 0%nat = None \/ st i_p = None ->
    exists st', bicgstab_pass e st = Ok st' /\ st' 1%nat = st 1%nat /\ st' 0%nat = None.
  Proof.
    intros H. destruct (pass_eq st) as (st' & E & B & _ & H0 & _). exists st'. split; auto. split; auto.
    cbv zeta in H0. rewrite H0. destruct H as [H|H]; rewrite H; [reflexivity|]. cbn [option_map].
    assert (D : forall a, ddiv a None = None) by (intros [a|]; reflexivity). rewrite D. destruct (st 0%nat); reflexivity.
  Qed.

  Lemma pass_finite st st' x r p ref :
    bicgstab_pass e st = Ok st' -> st 0%nat = Some x -> st i_r = Some r -> st i_p = Some p -> st i_ref = Some ref ->
    st' 0%nat <> None ->
    let alpha := ip e r ref / ip e (op e p) ref in
    let s := lin 1 r (- alpha) (op e p) in
    let omega := ip e (op e s) s / ip e (op e s) (op e s) in
    let r' := lin 1 s (- omega) (op e s) in
    let beta := ip e r' ref / ip e r ref * alpha / omega in
    ip e (op e p) ref <> 0 /\ ip e (op e s) (op e s) <> 0
    /\ st' 0%nat = Some (lin 1 (lin 1 x alpha p) omega s)
    /\ st' 1%nat = st 1%nat /\ st' i_r = Some r' /\ st' i_s = Some s /\ st' i_ref = Some ref
    /\ (st' i_p = None \/ (ip e r ref <> 0 /\ omega <> 0 /\ st' i_p = Some (lin 1 (lin 1 r' beta p) (- beta * omega) (op e p)))).
  Proof.
    intros E X Er Ep Eref F. destruct (pass_eq st) as (st2 & E2 & B & Rf & H). rewrite E in E2. injection E2 as <-.
    cbv zeta in H. rewrite X, Er, Ep, Eref in H. cbn [option_map] in H.
    destruct H as (H0 & Hr & Hs & Hp). cbv zeta.
    destruct (Req_EM_T (ip e (op e p) ref) 0) as [Z|Z].
    { exfalso. apply F. rewrite H0, (ddiv_0 _ _ Z). reflexivity. }
    rewrite (ddiv_eq _ _ Z) in H0, Hr, Hs, Hp. cbn [dopp option_map] in H0, Hr, Hs, Hp.
    set (alpha := ip e r ref / ip e (op e p) ref) in *. set (s := lin 1 r (- alpha) (op e p)) in *.
    destruct (Req_EM_T (ip e (op e s) (op e s)) 0) as [Z2|Z2].
    { exfalso. apply F. rewrite H0, (ddiv_0 _ _ Z2). reflexivity. }
    rewrite (ddiv_eq _ _ Z2) in H0, Hr, Hp. cbn [dopp option_map] in H0, Hr, Hp.
    set (omega := ip e (op e s) s / ip e (op e s) (op e s)) in *.
    set (r' := lin 1 s (- omega) (op e s)) in *.
    split; auto. split; auto. split; auto. split; auto. split; auto. split; auto. split; [now rewrite Rf|].
    set (beta := ip e r' ref / ip e r ref * alpha / omega).
    destruct (Req_EM_T (ip e r ref) 0) as [Z3|Z3].
    { left. rewrite Hp, (ddiv_0 _ _ Z3). reflexivity. }
    rewrite (ddiv_eq _ _ Z3) in Hp. cbn [dmul lift2] in Hp. destruct (Req_EM_T omega 0) as [Z4|Z4].
    { left. rewrite Hp, (ddiv_0 _ _ Z4). reflexivity. }
    right. split; auto. split; auto. rewrite (ddiv_eq _ _ Z4) in Hp. exact Hp.
  Qed.
End Pass.

(** ** Linear algebra of BiCGStab *)

Section Equation.
  Variables (n : nat) (e : lineq).
  Hypothesis OK : linear_equation n e.

  #[local] Instance op_proper' : Proper (same n ==> same n) (op e) := op_proper n e OK.
  #[local] Instance ip_proper' : Proper (same n ==> same n ==> eq) (ip e) := ip_proper n e OK.
  #[local] Instance residual_proper' : Proper (same n ==> same n ==> same n) (residual e) := residual_proper n e OK.
  #[local] Instance sqnorm_proper' : Proper (same n ==> eq) (sqnorm e) := sqnorm_proper n e OK.

  #[local] Instance power_proper : Proper (same n ==> eq ==> same n) (power e).
  Proof. intros x y H j j' <-. induction j as [|j IH]; cbn [power]; auto. now rewrite IH. Qed.

  Lemma power_op x j : power e (op e x) j = power e x (S j).
  Proof. induction j as [|j IH]; cbn [power] in *; auto. now rewrite IH. Qed.

  Lemma power_lin a x b y j : same n (power e (lin a x b y) j) (lin a (power e x j) b (power e y j)).
  Proof. induction j as [|j IH]; cbn [power]; [reflexivity|]. now rewrite IH, (op_linear n e OK). Qed.

  (** The smoothing operator: the product of [1 - w A]. *)
  Fixpoint smooth (ws : list R) (x : vec) : vec :=
    match ws with
    | nil => x
    | w :: ws' => lin 1 (smooth ws' x) (- w) (op e (smooth ws' x))
    end.

  #[local] Instance smooth_proper ws : Proper (same n ==> same n) (smooth ws).
  Proof. intros x y H. induction ws as [|w ws IH]; cbn [smooth]; auto. now rewrite IH. Qed.

  Lemma smooth_lin ws a x b y : same n (smooth ws (lin a x b y)) (lin a (smooth ws x) b (smooth ws y)).
  Proof.
    induction ws as [|w ws IH]; cbn [smooth]; [reflexivity|]. rewrite IH, (op_linear n e OK).
    intros i Hi. unfold lin. ring.
  Qed.

  Lemma smooth_op ws x : same n (smooth ws (op e x)) (op e (smooth ws x)).
  Proof.
    induction ws as [|w ws IH]; cbn [smooth]; [reflexivity|]. rewrite IH, (op_linear n e OK). reflexivity.
  Qed.

  Lemma smooth_zero ws : same n (smooth ws zero) zero.
  Proof.
    induction ws as [|w ws IH]; cbn [smooth]; [reflexivity|]. rewrite IH, (op_zero n e OK). intros i Hi. unfold lin, zero. lra.
  Qed.

  Definition lead (ws : list R) : R := fold_right (fun w a => a * - w) 1 ws.

  (** [f j x] is the inner product of [A^j x] with the reference vector. *)
  Definition f (ref : vec) (j : nat) (x : vec) : R := ip e (power e x j) ref.

  Lemma f_lin ref j a x b y : f ref j (lin a x b y) = a * f ref j x + b * f ref j y.
  Proof. unfold f. rewrite power_lin. apply (ip_linear n e OK). Qed.

  Lemma f_op ref j x : f ref j (op e x) = f ref (S j) x.
  Proof. unfold f. now rewrite power_op. Qed.

  Lemma f_same ref j x y : same n x y -> f ref j x = f ref j y.
  Proof. intros H. unfold f. now rewrite H. Qed.

  Lemma f_comb ref j m c v : f ref j (comb m c v) = rsum m (fun k => c k * f ref j (v k)).
  Proof.
    induction m as [|m IH].
    - change (comb 0 c v) with zero. cbn [rsum]. unfold f.
      assert (Z : same n (power e zero j) zero).
      { induction j as [|j IHj]; cbn [power]; [reflexivity|]. now rewrite IHj, (op_zero n e OK). }
      rewrite Z. apply (ip_zero_l n e OK).
    - rewrite comb_S, f_lin, IH. cbn [rsum]. lra.
  Qed.

  Lemma smooth_ip ref ws : exists g, g (length ws) = lead ws /\
    forall x, ip e (smooth ws x) ref = rsum (S (length ws)) (fun j => g j * f ref j x).
  Proof.
    induction ws as [|w ws (g & Gl & Gx)]; cbn [smooth length lead fold_right].
    - exists (fun _ => 1). split; [reflexivity|]. intros x. cbn. unfold f. cbn. lra.
    - set (k := length ws) in *.
      exists (fun j => (if j <=? k then g j else 0) - w * (if j =? 0 then 0 else g (j - 1)%nat)). split.
      + destruct (Nat.leb_spec (S k) k); [lia|]. cbn [Nat.eqb]. replace (S k - 1)%nat with k by lia. rewrite Gl.
        change (fold_right (fun w0 a => a * - w0) 1 ws) with (lead ws). lra.
      + intros x. rewrite (ip_linear n e OK), <- smooth_op, 2 Gx.
        rewrite (rsum_ext (S (S k)) _ (fun j => (if j <? S k then g j * f ref j x else 0)
                 + (- w) * (if j =? 0 then 0 else g (j - 1)%nat * f ref j x))).
        2: { intros j Hj. destruct (Nat.leb_spec j k), (Nat.ltb_spec j (S k)); try lia; destruct (j =? 0); lra. }
        rewrite rsum_plus, rsum_scal, <- rsum_pad by lia. rewrite Rmult_1_l. f_equal. f_equal.
        rewrite (rsum_shift (S k)). cbn [Nat.eqb]. rewrite Rplus_0_l. apply rsum_ext. intros j Hj.
        replace (S j - 1)%nat with j by lia. now rewrite f_op.
  Qed.

  Lemma smooth_ip_lead ref ws x :
    (forall j, (j < length ws)%nat -> f ref j x = 0) -> ip e (smooth ws x) ref = lead ws * f ref (length ws) x.
  Proof.
    intros H. destruct (smooth_ip ref ws) as (g & Gl & Gx). rewrite Gx, (rsum_single (S (length ws)) (length ws)), Gl; auto.
    intros j Hj Nj. rewrite H by lia. lra.
  Qed.

  (** What is known after [k] passes without division by zero. *)
  Record biorth (k : nat) (ref r p : vec) : Prop := {
    bo : exists ws u q us, length ws = k /\ same n r (smooth ws u) /\ same n p (smooth ws q)
      /\ (forall j, (j < k)%nat -> f ref j u = 0) /\ (forall j, (j < k)%nat -> f ref (S j) q = 0)
      /\ (forall j, (j < k)%nat -> f ref j (us j) <> 0) /\ (forall i j, (i < j)%nat -> (j < k)%nat -> f ref i (us j) = 0)
  }.

  (** A vector on which all the functionals of a triangular family vanish is zero. *)
  Lemma triangular_zero ref (us : nat -> vec) z :
    (forall j, (j < n)%nat -> f ref j (us j) <> 0) -> (forall i j, (i < j)%nat -> (j < n)%nat -> f ref i (us j) = 0) ->
    (forall j, (j < n)%nat -> f ref j z = 0) -> same n z zero.
  Proof.
    intros D T Z.
    assert (G : forall c, (forall j, (j < n)%nat -> f ref j (comb n c us) = 0) -> forall j, (j < n)%nat -> c j = 0).
    { intros c Hc. induction j as [j IH] using lt_wf_ind. intros Hj. specialize (Hc j Hj). rewrite f_comb in Hc.
      rewrite (rsum_single n j) in Hc; auto.
      - apply Rmult_integral in Hc. destruct Hc as [Hc|Hc]; auto. exfalso. now apply (D j).
      - intros i Hi N. destruct (Nat.lt_ge_cases i j).
        + rewrite (IH i) by lia. lra.
        + rewrite T by lia. lra. }
    assert (In : independent n n us).
    { intros c Hc. apply G. intros j Hj. rewrite (f_same ref j _ _ Hc).
      rewrite (f_same ref j zero (comb 0 (fun _ => 0) us)) by (intros i Hi; reflexivity). rewrite f_comb. reflexivity. }
    destruct (independent_spans n us z In) as (c & Hc). rewrite Hc.
    assert (C0 : forall j, (j < n)%nat -> c j = 0).
    { apply G. intros j Hj. rewrite <- (f_same ref j _ _ Hc). auto. }
    intros i Hi. unfold comb, zero. rewrite (rsum_ext _ _ (fun _ => 0)), rsum_0; auto. intros j Hj. rewrite C0 by auto. lra.
  Qed.

  Lemma lead_cons w ws : lead (w :: ws) = lead ws * - w.
  Proof. reflexivity. Qed.

  Lemma biorth_step k ref r p :
    biorth k ref r p -> (8 <= n_vecs e)%nat ->
    let alpha := ip e r ref / ip e (op e p) ref in
    let s := lin 1 r (- alpha) (op e p) in
    let omega := ip e (op e s) s / ip e (op e s) (op e s) in
    let r' := lin 1 s (- omega) (op e s) in
    let beta := ip e r' ref / ip e r ref * alpha / omega in
    ip e (op e p) ref <> 0 -> ip e (op e s) (op e s) <> 0 -> ip e r ref <> 0 -> omega <> 0 ->
    biorth (S k) ref r' (lin 1 (lin 1 r' beta p) (- beta * omega) (op e p)) /\ (S k < n \/ n = 0)%nat.
  Proof.
    intros [(ws & u & q & us & L & Er & Ep & Ou & Oq & Du & Tu)] _ alpha s omega r' beta Zd Zs Zr Zo.
    assert (Rho : ip e r ref = lead ws * f ref k u).
    { rewrite Er, smooth_ip_lead by (rewrite L; auto). now rewrite L. }
    assert (Dd : ip e (op e p) ref = lead ws * f ref (S k) q).
    { rewrite Ep, <- smooth_op, smooth_ip_lead.
      - now rewrite L, f_op.
      - intros j Hj. rewrite f_op. apply Oq. lia. }
    assert (Fk : f ref k u <> 0) by (intros Z; apply Zr; rewrite Rho, Z; lra).
    assert (Fq : f ref (S k) q <> 0) by (intros Z; apply Zd; rewrite Dd, Z; lra).
    assert (Lw : lead ws <> 0) by (intros Z; apply Zd; rewrite Dd, Z; lra).
    set (u' := lin 1 u (- alpha) (op e q)).
    assert (Es : same n s (smooth ws u')).
    { unfold s, u'. now rewrite smooth_lin, smooth_op, <- Er, <- Ep. }
    assert (Ou' : forall j, (j < S k)%nat -> f ref j u' = 0).
    { intros j Hj. unfold u'. rewrite f_lin, f_op. destruct (Nat.eq_dec j k) as [->|Ej].
      - unfold alpha. rewrite Rho, Dd. field. auto.
      - rewrite Ou, Oq by lia. lra. }
    assert (Er' : same n r' (smooth (omega :: ws) u')) by (cbn [smooth]; now rewrite <- Es).
    set (q' := lin 1 u' beta q).
    split.
    2: { destruct (Nat.lt_ge_cases (S k) n) as [?|Hn]; [now left|]. destruct n as [|n'] eqn:En; [now right|]. exfalso. apply Zs.
         rewrite <- En in *.
         assert (Zu : same n u' zero).
         { apply (triangular_zero ref (fun j => if j =? k then u else us j)).
           - intros j Hj. destruct (Nat.eqb_spec j k) as [->|Ej]; auto. apply Du. lia.
           - intros i j Hi Hj. destruct (Nat.eqb_spec j k) as [->|Ej]; auto. apply Tu; lia.
           - intros j Hj. apply Ou'. lia. }
         rewrite Es, Zu, smooth_zero, (op_zero n e OK). apply (ip_zero_l n e OK). }
    constructor. exists (omega :: ws), u', q', (fun j => if j =? k then u else us j).
    split; [cbn; now rewrite L|]. split; [exact Er'|]. split; [|split; [exact Ou'|split; [|split]]].
    - unfold q'. rewrite smooth_lin, <- Er'. cbn [smooth]. rewrite <- Ep. intros i Hi. unfold lin. ring.
    - intros j Hj. unfold q'. rewrite f_lin. destruct (Nat.eq_dec j k) as [->|Ej].
      + assert (Rr : ip e r' ref = lead (omega :: ws) * f ref (S k) u').
        { rewrite Er', smooth_ip_lead; cbn [length]; [now rewrite L|]. rewrite L. exact Ou'. }
        unfold beta, alpha. rewrite Rr, lead_cons, Rho, Dd. field. repeat split; auto.
      + rewrite Ou', Oq by lia. lra.
    - intros j Hj. destruct (Nat.eqb_spec j k) as [->|Ej]; auto. apply Du. lia.
    - intros i j Hi Hj. destruct (Nat.eqb_spec j k) as [->|Ej]; auto. apply Tu; lia.
  Qed.
End Equation.
