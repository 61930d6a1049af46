(** Proofs about the flow around a cylinder: derivatives, thermodynamics, far field. *)
From Coq Require Import Reals Arith Lia Lra.
From Coquelicot Require Import Coquelicot.
From Verif Require Import Outcome RSum Doublet_Model Doublet_Spec Doublet_Proofs.
Open Scope R_scope.

Lemma potential_derive vx vy r x y : (x <> 0 \/ y <> 0) ->
  is_derive (fun x => potential vx vy r x y) x (vel0 vx vy (r ^ 2) x y) /\ is_derive (fun y => potential vx vy r x y) y (vel1 vx vy (r ^ 2) x y) /\
  is_derive (fun y => stream vx vy r x y) y (vel0 vx vy (r ^ 2) x y) /\ is_derive (fun x => stream vx vy r x y) x (- vel1 vx vy (r ^ 2) x y).
Proof.
  intros NZ. pose proof (hyp_pos x y NZ) as P. unfold potential, stream, vel0, vel1. cbv zeta.
  split; [|split; [|split]]; (auto_derive; [repeat split; lra|field; lra]).
Qed.


Section T.
  Context (d : doublet) (pos : nat -> R).
  Context (PL : planar d) (NZ : pos 0%nat <> location d 0%nat \/ pos 1%nat <> location d 1%nat).
  Context (G : 1 < heat_rat d) (M : 0 < freestream d (n_v d - 2)%nat) (PP : 0 < pressure (heat_rat d) (n_v d - 2)%nat (freestream d)).
  Let fm := freestream d (n_v d - 2)%nat.
  Let g := heat_rat d.
  Lemma nv4 : (4 <= n_v d)%nat.
  Proof using PL. destruct PL as [->|[-> _]]; lia. Qed.
  Lemma last : (S (n_v d - 2) = n_v d - 1)%nat.
  Proof using PL. destruct PL as [->|[-> _]]; lia. Qed.
  Lemma sum_planar s : (n_v d = 5%nat -> s 2%nat = 0) -> rsum (n_v d - 2) (fun i => s i ^ 2) = s 0%nat ^ 2 + s 1%nat ^ 2.
  Proof using PL.
    intros Z. clear M PP; destruct PL as [E|[E _]]; rewrite E in Z |- *; cbn [Nat.sub rsum]; [ring|]. rewrite Z by reflexivity. ring.
  Qed.
  Lemma fs_pressure : pressure g (n_v d - 2) (freestream d) = fs_pres d.
  Proof using PL M.
    unfold pressure, fs_pres. rewrite last, sum_planar; [|destruct PL as [E|[_ E]]; [rewrite E; discriminate|now intros _]]. fold g fm. field. unfold fm. lra.
  Qed.
  Lemma fs_enth_eq : fs_enth d = g / (g - 1) * fs_pres d / fm /\ 0 < fs_enth d.
  Proof using PL G M PP.
    assert (E : fs_enth d = g / (g - 1) * fs_pres d / fm).
    { unfold fs_enth, fs_stag. unfold fs_pres. fold g fm. unfold g, fm. field. split; lra. }
    split; [exact E|]. rewrite E. fold g in PP. rewrite fs_pressure in PP. apply Rdiv_lt_0_compat; [|exact M]. apply Rmult_lt_0_compat; [|exact PP]. apply Rdiv_lt_0_compat; unfold g; lra.
  Qed.
  Section State.
    Context (s : nat -> R) (E : doublet_at d pos = Ok (Some s)) (SM : 0 < s (n_v d - 2)%nat).
    Lemma state_pressure : pressure g (n_v d - 2) s = (g - 1) / g * s (n_v d - 2)%nat * enth d pos /\
      s (n_v d - 2)%nat = fm * Rpower (enth d pos / fs_enth d) (1 / (g - 1)) /\ 0 < enth d pos / fs_enth d /\
      s (n_v d - 1)%nat = s (n_v d - 2)%nat * (enth d pos / g + kin d pos).
    Proof using All.
      destruct (run_state d pos nv4 NZ s E) as (p & Ep & E1 & E2 & E3 & E4 & E5). fold g fm in Ep, E1, E2, E3, E4.
      assert (T : 0 < enth d pos / fs_enth d /\ p = Rpower (enth d pos / fs_enth d) (1 / (g - 1))).
      { unfold power in Ep. destruct (Rlt_dec 0 (enth d pos / fs_enth d)) as [L|L]; [split; [exact L|congruence]|].
        destruct (Req_EM_T (enth d pos / fs_enth d) 0); [|discriminate]. injection Ep as <-. rewrite E2 in SM. lra. }
      destruct T as [T1 T2]. split; [|split; [rewrite E2, T2; reflexivity|split; [exact T1|rewrite E1, E2; reflexivity]]].
      unfold pressure. rewrite last, sum_planar.
      - rewrite E1, E3, E4, <- E2. unfold kin. field. split; [unfold g; lra|lra].
      - intros Q. destruct PL as [H|[_ H]]; [rewrite H in Q; discriminate|]. rewrite E5 by (rewrite Q; cbn; lia). exact H.
    Qed.
    Lemma enthalpy_main : total_enthalpy g (n_v d - 2) s = total_enthalpy g (n_v d - 2) (freestream d).
    Proof using All.
      destruct state_pressure as (P & _ & _ & E1). unfold total_enthalpy. rewrite fs_pressure, P, last, E1. fold fm.
      fold (fs_stag d). transitivity (enth d pos + kin d pos); [field; split; [unfold g; lra|lra]|]. unfold enth. ring_simplify. reflexivity.
    Qed.
    Lemma entropy_main : entropy g (n_v d - 2) s = entropy g (n_v d - 2) (freestream d).
    Proof using All.
      destruct state_pressure as (P & E2 & T & _). destruct fs_enth_eq as [H HP]. unfold entropy. rewrite fs_pressure, P. fold fm.
      set (t := enth d pos / fs_enth d) in *. assert (EH : enth d pos = t * fs_enth d) by (unfold t; field; lra).
      assert (G1 : g - 1 <> 0) by (unfold g; lra). assert (G0 : g <> 0) by (unfold g; lra). assert (FM : 0 < fm) by exact M.
      assert (RP : Rpower (s (n_v d - 2)%nat) g = Rpower fm g * (Rpower t (1 / (g - 1)) * t)).
      { rewrite E2. rewrite <- Rpower_mult_distr by (try exact FM; apply exp_pos). f_equal.
        rewrite Rpower_mult. replace (1 / (g - 1) * g) with (1 / (g - 1) + 1) by (field; exact G1). rewrite Rpower_plus. f_equal. now apply Rpower_1. }
      rewrite RP, EH, E2, H. pose proof (exp_pos (g * ln fm)) as X1. change (exp (g * ln fm)) with (Rpower fm g) in X1.
      pose proof (exp_pos (1 / (g - 1) * ln t)) as X2. change (exp (1 / (g - 1) * ln t)) with (Rpower t (1 / (g - 1))) in X2.
      field. repeat split; lra.
    Qed.
  End State.
  Lemma defined_main : let x := pos 0%nat - location d 0%nat in let y := pos 1%nat - location d 1%nat in
    radius d ^ 2 <= x ^ 2 + y ^ 2 ->
    let vx := freestream d 0%nat / fm in let vy := freestream d 1%nat / fm in
    3 * (g - 1) * (vx ^ 2 + vy ^ 2) < 2 * (g * fs_pres d / fm) ->
    exists s, doublet_at d pos = Ok (Some s) /\ 0 < s (n_v d - 2)%nat /\ 0 < pressure g (n_v d - 2) s.
  Proof using All.
    intros x y B vx vy MA. destruct fs_enth_eq as [H HP].
    assert (SP : v0 d pos ^ 2 + v1 d pos ^ 2 <= 4 * (vx ^ 2 + vy ^ 2)) by (apply (speed_bound d pos NZ); exact B).
    assert (EP : 0 < enth d pos).
    { assert (EE : enth d pos = fs_enth d + 1 / 2 * (vx ^ 2 + vy ^ 2) - kin d pos) by (unfold enth, fs_enth, vx, vy, fm; ring).
      rewrite EE. unfold kin. assert (Q : 3 * (vx ^ 2 + vy ^ 2) < 2 * fs_enth d).
      { rewrite H. apply (Rmult_lt_reg_l (g - 1)); [unfold g; lra|]. replace ((g - 1) * (2 * (g / (g - 1) * fs_pres d / fm))) with (2 * (g * fs_pres d / fm)) by (field; unfold g, fm; split; lra). lra. }
      lra. }
    assert (T : 0 < enth d pos / fs_enth d) by (apply Rdiv_lt_0_compat; assumption).
    assert (R : exists s, doublet_at d pos = Ok (Some s)).
    { rewrite (run_eq d pos nv4 NZ). unfold power. destruct (Rlt_dec 0 (enth d pos / fs_enth d)); [|contradiction]. eexists. reflexivity. }
    destruct R as [s Es]. exists s. split; [exact Es|].
    destruct (run_state d pos nv4 NZ s Es) as (p & Ep & E1 & E2 & _). unfold power in Ep. destruct (Rlt_dec 0 (enth d pos / fs_enth d)); [|contradiction].
    injection Ep as <-. assert (SM : 0 < s (n_v d - 2)%nat) by (rewrite E2; apply Rmult_lt_0_compat; [exact M|apply exp_pos]).
    split; [exact SM|]. destruct (state_pressure s Es SM) as (P & _). rewrite P. repeat apply Rmult_lt_0_compat; try assumption; [unfold g; lra|apply Rinv_0_lt_compat; unfold g; lra].
  Qed.
End T.

(** ** far away *)
Section F.
  Context (d : doublet) (NV : (4 <= n_v d)%nat) (G : 1 < heat_rat d) (M : 0 < freestream d (n_v d - 2)%nat) (FE : 0 < fs_enth d).
  Context (pos : nat -> nat -> R).
  Let x k := pos k 0%nat - location d 0%nat.
  Let y k := pos k 1%nat - location d 1%nat.
  Context (FAR : is_lim_seq (fun k => x k ^ 2 + y k ^ 2) p_infty).
  Context (NZ : forall k, pos k 0%nat <> location d 0%nat \/ pos k 1%nat <> location d 1%nat).
  Let fm := freestream d (n_v d - 2)%nat.
  Let vx := freestream d 0%nat / fm.
  Let vy := freestream d 1%nat / fm.
  Lemma ratio_lim : is_lim_seq (fun k => radius d ^ 2 / (x k ^ 2 + y k ^ 2)) 0.
  Proof using FAR.
    apply is_lim_seq_ext with (fun k => radius d ^ 2 * / (x k ^ 2 + y k ^ 2)); [reflexivity|].
    replace (Finite 0) with (Rbar_mult (radius d ^ 2) (Rbar_inv p_infty)) by (cbn; f_equal; ring).
    apply is_lim_seq_scal_l. apply is_lim_seq_inv; [exact FAR|discriminate].
  Qed.
  Lemma vel_lim : is_lim_seq (fun k => v0 d (pos k)) vx /\ is_lim_seq (fun k => v1 d (pos k)) vy.
  Proof using FAR NZ.
    set (S := vx ^ 2 + vy ^ 2). assert (SP : 0 <= S) by (unfold S; nra).
    assert (B : is_lim_seq (fun k => radius d ^ 2 / (x k ^ 2 + y k ^ 2) * sqrt S) 0).
    { replace (Finite 0) with (Rbar_mult 0 (sqrt S)) by (cbn; f_equal; ring). apply is_lim_seq_scal_r. exact ratio_lim. }
    assert (D : forall k, (v0 d (pos k) - vx) ^ 2 + (v1 d (pos k) - vy) ^ 2 = (radius d ^ 2 / (x k ^ 2 + y k ^ 2) * sqrt S) ^ 2).
    { intros k. rewrite Rpow_mult_distr. rewrite pow2_sqrt by exact SP. apply (disturbance d (pos k) (NZ k)). }
    assert (N : forall k, 0 <= radius d ^ 2 / (x k ^ 2 + y k ^ 2) * sqrt S).
    { intros k. apply Rmult_le_pos; [|apply sqrt_pos]. apply Rle_mult_inv_pos; [apply pow2_ge_0|]. apply hyp_pos. apply (away d (pos k) (NZ k)). }
    assert (L : forall a b c : R, 0 <= c -> a ^ 2 + b ^ 2 = c ^ 2 -> - c <= a <= c /\ - c <= b <= c) by (intros a b c C E; split; split; nra).
    assert (W : forall f l, (forall k, - (radius d ^ 2 / (x k ^ 2 + y k ^ 2) * sqrt S) <= f k - l <= radius d ^ 2 / (x k ^ 2 + y k ^ 2) * sqrt S) -> is_lim_seq f (Finite l)).
    { intros f l H. apply is_lim_seq_ext with (fun k => (f k - l) + l); [intros k; ring|].
      replace (Finite l) with (Rbar_plus 0 l) by (cbn; f_equal; ring). apply is_lim_seq_plus'; [|apply is_lim_seq_const].
      apply (is_lim_seq_le_le (fun k => - (radius d ^ 2 / (x k ^ 2 + y k ^ 2) * sqrt S)) _ (fun k => radius d ^ 2 / (x k ^ 2 + y k ^ 2) * sqrt S) 0); [exact H| |exact B].
      replace (Finite 0) with (Rbar_opp 0) by (cbn; f_equal; ring). now apply -> is_lim_seq_opp. }
    split; apply W; intros k; apply (L _ _ _ (N k) (D k)).
  Qed.
  Lemma enth_lim : is_lim_seq (fun k => kin d (pos k)) (1 / 2 * (vx ^ 2 + vy ^ 2)) /\ is_lim_seq (fun k => enth d (pos k)) (fs_enth d).
  Proof using FAR NZ.
    destruct vel_lim as [A B].
    assert (K : is_lim_seq (fun k => kin d (pos k)) (1 / 2 * (vx ^ 2 + vy ^ 2))).
    { apply is_lim_seq_ext with (fun k => 1 / 2 * (v0 d (pos k) * v0 d (pos k) + v1 d (pos k) * v1 d (pos k))); [intros k; unfold kin; ring|].
      replace (1 / 2 * (vx ^ 2 + vy ^ 2)) with (1 / 2 * (vx * vx + vy * vy)) by ring.
      apply (is_lim_seq_scal_l _ (1 / 2) (vx * vx + vy * vy)). apply is_lim_seq_plus'; now apply is_lim_seq_mult'. }
    split; [exact K|]. unfold enth, fs_enth. apply is_lim_seq_minus'; [apply is_lim_seq_const|exact K].
  Qed.
  Lemma far_main s : (forall k, doublet_at d (pos k) = Ok (Some (s k))) -> forall i, (i < n_v d)%nat -> is_lim_seq (fun k => s k i) (freestream d i).
  Proof using NV G M FE FAR NZ.
    intros E. destruct vel_lim as [A B]. destruct enth_lim as [K H].
    set (t := fun k => enth d (pos k) / fs_enth d).
    assert (T : is_lim_seq t 1).
    { unfold t. replace (Finite 1) with (Rbar_mult (fs_enth d) (/ fs_enth d)) by (cbn; f_equal; field; lra). apply (is_lim_seq_scal_r _ (/ fs_enth d) (fs_enth d)). exact H. }
    set (p := fun k => s k (n_v d - 2)%nat / fm).
    assert (P : is_lim_seq p 1).
    { apply is_lim_seq_ext_loc with (fun k => Rpower (t k) (1 / (heat_rat d - 1))).
      - assert (L : eventually (fun k => 0 < t k)).
        { apply is_lim_seq_spec in T. destruct (T (mkposreal (1 / 2) ltac:(lra))) as [n Hn]. exists n. intros k I. specialize (Hn k I). cbn in Hn. apply Rabs_lt_between in Hn. lra. }
        destruct L as [n Hn]. exists n. intros k I. specialize (Hn k I). destruct (run_state d (pos k) NV (NZ k) (s k) (E k)) as (q & Eq & _ & E2 & _).
        unfold p. rewrite E2. fold fm. unfold power in Eq. fold (t k) in Eq. destruct (Rlt_dec 0 (t k)); [|contradiction]. injection Eq as <-. field. unfold fm; lra.
      - assert (R1 : Rpower 1 (1 / (heat_rat d - 1)) = 1) by (unfold Rpower; rewrite ln_1, Rmult_0_r; apply exp_0).
        assert (R2 : is_lim_seq (fun k => Rpower (t k) (1 / (heat_rat d - 1))) (Rpower 1 (1 / (heat_rat d - 1)))); [|rewrite R1 in R2; exact R2].
        apply (is_lim_seq_continuous (fun z => Rpower z (1 / (heat_rat d - 1))) t 1); [|exact T].
        apply derivable_continuous_pt. eexists. apply derivable_pt_lim_power. lra. }
    assert (RS : forall k, s k (n_v d - 1)%nat = fm * p k * (enth d (pos k) / heat_rat d + kin d (pos k)) /\ s k (n_v d - 2)%nat = fm * p k /\ s k 0%nat = v0 d (pos k) * (fm * p k) /\ s k 1%nat = v1 d (pos k) * (fm * p k) /\ (forall i, (2 <= i < n_v d - 2)%nat -> s k i = freestream d i)).
    { intros k. destruct (run_state d (pos k) NV (NZ k) (s k) (E k)) as (q & _ & E1 & E2 & E3 & E4 & E5). fold fm in E1, E2, E3, E4.
      replace (p k) with q by (unfold p; rewrite E2; field; unfold fm; lra). repeat split; assumption. }
    assert (MP : is_lim_seq (fun k => fm * p k) fm).
    { replace (Finite fm) with (Rbar_mult fm 1) by (cbn; f_equal; ring). apply is_lim_seq_scal_l. exact P. }
    intros i I. destruct (Nat.eq_dec i (n_v d - 1)) as [->|N1]; [|destruct (Nat.eq_dec i (n_v d - 2)) as [->|N2]; [|destruct i as [|[|i]]]].
    - apply is_lim_seq_ext with (fun k => fm * p k * (enth d (pos k) * / heat_rat d + kin d (pos k))); [intros k; symmetry; apply RS|].
      replace (freestream d (n_v d - 1)%nat) with (fm * (fs_enth d * / heat_rat d + 1 / 2 * (vx ^ 2 + vy ^ 2))).
      + apply is_lim_seq_mult'; [exact MP|]. apply is_lim_seq_plus'; [|exact K]. now apply (is_lim_seq_scal_r _ (/ heat_rat d) (fs_enth d)).
      + unfold fs_enth, fs_stag, fs_pres. fold fm. fold vx vy. field. unfold fm. split; lra.
    - apply is_lim_seq_ext with (fun k => fm * p k); [intros k; symmetry; apply RS|exact MP].
    - apply is_lim_seq_ext with (fun k => v0 d (pos k) * (fm * p k)); [intros k; symmetry; apply RS|].
      replace (freestream d 0%nat) with (vx * fm) by (unfold vx; field; unfold fm; lra). now apply is_lim_seq_mult'.
    - apply is_lim_seq_ext with (fun k => v1 d (pos k) * (fm * p k)); [intros k; symmetry; apply RS|].
      replace (freestream d 1%nat) with (vy * fm) by (unfold vy; field; unfold fm; lra). now apply is_lim_seq_mult'.
    - apply is_lim_seq_ext with (fun _ => freestream d (S (S i))); [intros k; symmetry; apply RS; lia|apply is_lim_seq_const].
  Qed.
End F.
