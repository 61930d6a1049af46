(** Proofs about the standard atmosphere. *)
From Coq Require Import Reals List Arith Lia Lra.
From Verif Require Import Outcome RSum Atmos_Model Atmos_Spec.
Import ListNotations.
Local Open Scope R_scope.

Definition lapse (i : nat) : R := (row_temp (i + 1) - row_temp i) / (row_alt (i + 1) - row_alt i).
Definition factor (i : nat) (d : R) : R :=
  if Rlt_dec (Rabs (lapse i)) epsilon then exp (- std_grav * d / specific_gas_air / row_temp i) else Rpower ((row_temp i + lapse i * d) / row_temp i) (- std_grav / lapse i / specific_gas_air).
Definition width (i : nat) : R := row_alt (i + 1) - row_alt i.
(** the pressure at the base of layer [k] *)
Definition base_pres (k : nat) : R := atmosphere * rprod k (fun i => factor i (width i)).

(** ** the table *)
Lemma lapse_values : lapse 0 = -0.0065 /\ lapse 1 = 0 /\ lapse 2 = 0.001 /\ lapse 3 = 0.0028 /\ lapse 4 = 0 /\ lapse 5 = -0.0028 /\ lapse 6 = -0.002.
Proof. unfold lapse, row_alt, row_temp. cbn. repeat split; lra. Qed.
Lemma row_gap i : (i < 7)%nat -> epsilon < width i.
Proof. intros I. unfold width, row_alt, epsilon. do 7 (destruct i as [|i]; [cbn; lra|]). lia. Qed.
Lemma temp_pos i : (i < 8)%nat -> 0 < row_temp i.
Proof. intros I. unfold row_temp. do 8 (destruct i as [|i]; [cbn; lra|]). lia. Qed.
Lemma lapse_cases i : (i < 7)%nat -> lapse i = 0 \/ epsilon <= Rabs (lapse i).
Proof.
  intros I. destruct lapse_values as (A & B & C & D & E & F & G). unfold epsilon.
  do 7 (destruct i as [|i]; [rewrite ?A, ?B, ?C, ?D, ?E, ?F, ?G; (now left) || (right; unfold Rabs; destruct (Rcase_abs _); lra)|]). lia.
Qed.
Lemma layer_temp i d : (i < 7)%nat -> - epsilon <= d <= width i -> 0 < row_temp i + lapse i * d.
Proof.
  intros I. destruct lapse_values as (A & B & C & D & E & F & G). unfold width, row_alt, row_temp, epsilon.
  do 7 (destruct i as [|i]; [rewrite ?A, ?B, ?C, ?D, ?E, ?F, ?G; cbn; intros; lra|]). lia.
Qed.
Lemma width_sum i : row_alt (i + 1) = row_alt i + width i. Proof. unfold width. ring. Qed.

(** ** one layer *)
Lemma factor_pos i d : 0 < factor i d.
Proof. unfold factor. destruct (Rlt_dec _ _); [apply exp_pos|unfold Rpower; apply exp_pos]. Qed.
Lemma factor_0 i : (i < 7)%nat -> factor i 0 = 1.
Proof.
  intros I. pose proof (temp_pos i ltac:(lia)). unfold factor. destruct (Rlt_dec _ _).
  - replace (- std_grav * 0 / specific_gas_air / row_temp i) with 0 by (unfold Rdiv; ring). apply exp_0.
  - replace ((row_temp i + lapse i * 0) / row_temp i) with 1 by (field; lra). unfold Rpower. rewrite ln_1, Rmult_0_r. apply exp_0.
Qed.
Lemma gas_pos : 0 < specific_gas_air. Proof. unfold specific_gas_air. lra. Qed.
Lemma grav_pos : 0 < std_grav. Proof. unfold std_grav. lra. Qed.
(** hydrostatic balance in a layer *)
Lemma factor_deriv i d : (i < 7)%nat -> - epsilon <= d <= width i -> derivable_pt_lim (factor i) d (- std_grav / (specific_gas_air * (row_temp i + lapse i * d)) * factor i d).
Proof.
  intros I D. pose proof (temp_pos i ltac:(lia)) as T. pose proof (layer_temp i d I D) as P. pose proof gas_pos as G. unfold factor. destruct (Rlt_dec (Rabs (lapse i)) epsilon) as [L|L].
  - assert (Z : lapse i = 0) by (destruct (lapse_cases i I); [assumption|lra]).
    set (c := - std_grav / specific_gas_air / row_temp i).
    assert (DL : derivable_pt_lim (fun x => exp (c * x)) d (exp (c * d) * c)).
    { apply (derivable_pt_lim_comp (fun x => c * x) exp d c (exp (c * d))); [|apply derivable_pt_lim_exp]. intros e E. exists (mkposreal 1 Rlt_0_1). intros h H0 H1. replace ((c * (d + h) - c * d) / h - c) with 0 by (field; exact H0). rewrite Rabs_R0. exact E. }
    assert (EF : forall x, exp (- std_grav * x / specific_gas_air / row_temp i) = exp (c * x)) by (intros x; f_equal; unfold c; field; lra).
    rewrite EF. replace (- std_grav / (specific_gas_air * (row_temp i + lapse i * d)) * exp (c * d)) with (exp (c * d) * c) by (rewrite Z; unfold c; field; lra).
    intros e E. destruct (DL e E) as (delta & H). exists delta. intros h H0 H1. rewrite !EF. now apply H.
  - assert (NZ : lapse i <> 0) by (intros Z; apply L; rewrite Z, Rabs_R0; unfold epsilon; lra).
    set (a := - std_grav / lapse i / specific_gas_air). set (f := fun x => (row_temp i + lapse i * x) / row_temp i).
    assert (DF : derivable_pt_lim f d (lapse i / row_temp i)).
    { unfold f. intros e E. exists (mkposreal 1 Rlt_0_1). intros h H0 H1. replace (((row_temp i + lapse i * (d + h)) / row_temp i - (row_temp i + lapse i * d) / row_temp i) / h - lapse i / row_temp i) with 0 by (field; lra). rewrite Rabs_R0. exact E. }
    assert (FP : 0 < f d) by (unfold f; apply Rdiv_lt_0_compat; assumption).
    assert (DR : derivable_pt_lim (fun x => Rpower x a) (f d) (a * Rpower (f d) (a - 1))) by (now apply derivable_pt_lim_power).
    pose proof (derivable_pt_lim_comp f (fun x => Rpower x a) d _ _ DF DR) as DC. change (derivable_pt_lim (fun x => Rpower (f x) a) d (- std_grav / (specific_gas_air * (row_temp i + lapse i * d)) * Rpower (f d) a)).
    replace (- std_grav / (specific_gas_air * (row_temp i + lapse i * d)) * Rpower (f d) a) with (a * Rpower (f d) (a - 1) * (lapse i / row_temp i)); [exact DC|].
    replace (Rpower (f d) (a - 1)) with (Rpower (f d) a / f d).
    + unfold a, f. field. repeat split; lra.
    + unfold Rminus. rewrite Rpower_plus. rewrite Rpower_Ropp, Rpower_1 by exact FP. reflexivity.
Qed.
Lemma factor_decr i x y : (i < 7)%nat -> - epsilon <= x -> x < y -> y <= width i -> factor i y < factor i x.
Proof.
  intros I X XY Y.
  assert (D : forall c, x <= c <= y -> derivable_pt_lim (factor i) c (- std_grav / (specific_gas_air * (row_temp i + lapse i * c)) * factor i c)) by (intros c C; apply factor_deriv; [exact I|lra]).
  destruct (MVT_cor2 (factor i) _ x y XY D) as (c & E & C). pose proof (factor_pos i c). pose proof (layer_temp i c I ltac:(lra)). pose proof gas_pos. pose proof grav_pos.
  assert (0 < std_grav / (specific_gas_air * (row_temp i + lapse i * c))) by (apply Rdiv_lt_0_compat; [lra|apply Rmult_lt_0_compat; lra]).
  assert (Q : - std_grav / (specific_gas_air * (row_temp i + lapse i * c)) = - (std_grav / (specific_gas_air * (row_temp i + lapse i * c)))) by (unfold Rdiv; ring). cbv beta in E. rewrite Q in E.
  set (q := std_grav / (specific_gas_air * (row_temp i + lapse i * c))) in *. clearbody q. assert (0 < q * factor i c * (y - x)) by (repeat apply Rmult_lt_0_compat; lra). replace (- q * factor i c * (y - x)) with (- (q * factor i c * (y - x))) in E by ring. lra.
Qed.

(** ** the loop *)
Lemma layers_S rest i h p t : layers (S rest) i h p t = if Rlt_dec (row_alt i - epsilon) h then layers rest (S i) h (p * factor i (Rmin (row_alt (i + 1)) h - row_alt i)) (row_temp i + lapse i * (Rmin (row_alt (i + 1)) h - row_alt i)) else (p, t).
Proof. cbn [layers]. unfold factor, lapse. rewrite (Nat.add_1_r i). reflexivity. Qed.
Lemma alt_mono i j : (i <= j)%nat -> (j <= 7)%nat -> row_alt i <= row_alt j.
Proof.
  intros I J. induction I as [|j I IH]; [lra|]. specialize (IH ltac:(lia)). pose proof (row_gap j ltac:(lia)). replace (S j) with (j + 1)%nat by lia. rewrite width_sum. unfold epsilon in *. lra.
Qed.
(** the layers below [k] are passed *)
Lemma layers_skip h k : (k < 7)%nat -> row_alt k <= h -> forall t, exists t', layers 7 0 h atmosphere t = layers (7 - k) k h (base_pres k) t'.
Proof.
  induction k as [|k IH]; intros K H t.
  - exists t. unfold base_pres. cbn [rprod]. rewrite Rmult_1_r. reflexivity.
  - pose proof (alt_mono k (S k) ltac:(lia) ltac:(lia)) as M. destruct (IH ltac:(lia) ltac:(lra) t) as (t' & E). rewrite E. replace (7 - k)%nat with (S (7 - S k)) by lia. rewrite layers_S. rewrite Nat.add_1_r.
    destruct (Rlt_dec (row_alt k - epsilon) h) as [_|X]; [|exfalso; unfold epsilon in X; lra]. rewrite Rmin_left by exact H. eexists. f_equal. unfold base_pres. cbn [rprod]. rewrite Rmult_assoc. unfold width. now rewrite Nat.add_1_r.
Qed.
(** in layer [k], above the last [epsilon] before its end *)
Lemma layers_in h k : (k < 7)%nat -> (row_alt k <= h \/ k = 0%nat /\ - epsilon < h) -> h <= row_alt (k + 1) - epsilon \/ k = 6%nat /\ h <= row_alt 7 ->
  layers 7 0 h atmosphere 0 = (base_pres k * factor k (h - row_alt k), row_temp k + lapse k * (h - row_alt k)).
Proof.
  intros K L U. pose proof (row_gap k K) as G.
  assert (E : exists t', layers 7 0 h atmosphere 0 = layers (7 - k) k h (base_pres k) t').
  { destruct L as [L|(-> & L)]; [now apply layers_skip|]. exists 0. unfold base_pres. cbn [rprod Nat.sub]. now rewrite Rmult_1_r. }
  destruct E as (t' & ->). replace (7 - k)%nat with (S (6 - k)) by lia. rewrite layers_S.
  assert (row_alt k - epsilon < h) by (destruct L as [L|(-> & L)]; unfold epsilon in *; [|unfold row_alt; cbn]; lra).
  destruct (Rlt_dec (row_alt k - epsilon) h) as [_|X]; [|exfalso; lra].
  assert (HM : h <= row_alt (k + 1)) by (destruct U as [U|(-> & U)]; unfold epsilon in *; [lra|exact U]). rewrite Rmin_right by exact HM.
  destruct U as [U|(-> & U)]; [|reflexivity]. destruct (6 - k)%nat eqn:EK; [reflexivity|]. rewrite layers_S. rewrite <- (Nat.add_1_r k). destruct (Rlt_dec (row_alt (k + 1) - epsilon) h) as [X|_]; [exfalso; lra|reflexivity].
Qed.
(** in the last [epsilon] before the base of layer [k + 1], that layer counts too *)
Lemma layers_window h k : (S k < 7)%nat -> row_alt (k + 1) - epsilon < h <= row_alt (k + 1) ->
  layers 7 0 h atmosphere 0 = (base_pres k * factor k (h - row_alt k) * factor (S k) (h - row_alt (S k)), row_temp (S k) + lapse (S k) * (h - row_alt (S k))).
Proof.
  intros K (L & U). pose proof (row_gap k ltac:(lia)) as G. pose proof (row_gap (S k) K) as G'. pose proof (width_sum k) as W. pose proof (width_sum (S k)) as W'. rewrite Nat.add_1_r in W, L, U.
  destruct (layers_skip h k ltac:(lia)) with (t := 0) as (t' & ->); [unfold epsilon in *; lra|]. replace (7 - k)%nat with (S (S (5 - k))) by lia. rewrite layers_S, Nat.add_1_r.
  destruct (Rlt_dec (row_alt k - epsilon) h) as [_|X]; [|exfalso; unfold epsilon in *; lra]. rewrite Rmin_right by exact U. rewrite layers_S. destruct (Rlt_dec (row_alt (S k) - epsilon) h) as [_|X]; [|exfalso; lra].
  rewrite Rmin_right by (unfold epsilon in *; lra). destruct (5 - k)%nat eqn:EK; [reflexivity|]. rewrite layers_S, <- (Nat.add_1_r (S k)). destruct (Rlt_dec (row_alt (S k + 1) - epsilon) h) as [X|_]; [exfalso; lra|reflexivity].
Qed.

(** ** the layers of the standard *)
Lemma alt_values : row_alt 0 = 0 /\ row_alt 1 = 11000 /\ row_alt 2 = 20000 /\ row_alt 3 = 32000 /\ row_alt 4 = 47000 /\ row_alt 5 = 51000 /\ row_alt 6 = 71000 /\ row_alt 7 = 80000.
Proof. unfold row_alt. cbn. repeat split; reflexivity. Qed.
Lemma temp_values : row_temp 0 = 288.15 /\ row_temp 1 = 216.65 /\ row_temp 2 = 216.65 /\ row_temp 3 = 228.65 /\ row_temp 4 = 270.65 /\ row_temp 5 = 270.65 /\ row_temp 6 = 214.65.
Proof. unfold row_temp. cbn. repeat split; reflexivity. Qed.
Definition in_layer (k : nat) (h : R) : Prop := (k < 7)%nat /\ row_alt k <= h /\ (h <= row_alt (k + 1) - epsilon \/ k = 6%nat /\ h <= row_alt 7).
Lemma regular_layer h : regular h -> exists k, in_layer k h.
Proof.
  intros ((L & U) & B). destruct alt_values as (A0 & A1 & A2 & A3 & A4 & A5 & A6 & A7). unfold in_layer, epsilon. unfold bases, tolerance in B.
  destruct (B 11000 ltac:(cbn; tauto)); [exists 0%nat; cbn [Nat.add]; rewrite A0, A1; repeat split; [lia|lra|left; lra]|].
  destruct (B 20000 ltac:(cbn; tauto)); [exists 1%nat; cbn [Nat.add]; rewrite A1, A2; repeat split; [lia|lra|left; lra]|].
  destruct (B 32000 ltac:(cbn; tauto)); [exists 2%nat; cbn [Nat.add]; rewrite A2, A3; repeat split; [lia|lra|left; lra]|].
  destruct (B 47000 ltac:(cbn; tauto)); [exists 3%nat; cbn [Nat.add]; rewrite A3, A4; repeat split; [lia|lra|left; lra]|].
  destruct (B 51000 ltac:(cbn; tauto)); [exists 4%nat; cbn [Nat.add]; rewrite A4, A5; repeat split; [lia|lra|left; lra]|].
  destruct (B 71000 ltac:(cbn; tauto)); [exists 5%nat; cbn [Nat.add]; rewrite A5, A6; repeat split; [lia|lra|left; lra]|].
  exists 6%nat. cbn [Nat.add]. rewrite A6, A7. repeat split; [lia|lra|right; split; [reflexivity|lra]].
Qed.
Lemma icao_layer k h : (k < 7)%nat -> row_alt k <= h <= row_alt (k + 1) -> icao_temperature h = row_temp k + lapse k * (h - row_alt k).
Proof.
  intros K. destruct alt_values as (A0 & A1 & A2 & A3 & A4 & A5 & A6 & A7). destruct lapse_values as (L0 & L1 & L2 & L3 & L4 & L5 & L6). destruct temp_values as (T0 & T1 & T2 & T3 & T4 & T5 & T6).
  unfold icao_temperature, passed, Rmax, Rmin.
  do 7 (destruct k as [|k]; [cbn [Nat.add]; rewrite ?A0, ?A1, ?A2, ?A3, ?A4, ?A5, ?A6, ?A7, ?L0, ?L1, ?L2, ?L3, ?L4, ?L5, ?L6, ?T0, ?T1, ?T2, ?T3, ?T4, ?T5, ?T6; intros; repeat (destruct (Rle_dec _ _); try lra); lra|]). lia.
Qed.
Lemma icao_positive h : 0 <= h <= 80000 -> 196.65 <= icao_temperature h.
Proof. intros H. unfold icao_temperature, passed, Rmax, Rmin. repeat (destruct (Rle_dec _ _); try lra). Qed.
Lemma in_layer_upper k h : in_layer k h -> row_alt k <= h <= row_alt (k + 1) /\ row_alt 0 - epsilon < h /\ h < row_alt 7 + epsilon.
Proof.
  intros (K & L & U). pose proof (alt_mono 0 k ltac:(lia) ltac:(lia)). pose proof (alt_mono (k + 1) 7 ltac:(lia) ltac:(lia)). unfold epsilon in *. destruct U as [U|(-> & U)]; [lra|]. cbn [Nat.add] in *. lra.
Qed.
Lemma geopot_eq h off : row_alt 0 - epsilon < h -> h < row_alt 7 + epsilon ->
  standard_atmosphere_geopot h off = Ok (fst (layers 7 0 h atmosphere 0) / specific_gas_air / (snd (layers 7 0 h atmosphere 0) + off), fst (layers 7 0 h atmosphere 0)).
Proof.
  intros L U. unfold standard_atmosphere_geopot. change (length alt_temp - 1)%nat with 7%nat. destruct (Rlt_dec _ _) as [_|X]; [|lra]. destruct (Rlt_dec _ _) as [_|X]; [|lra]. destruct (layers 7 0 h atmosphere 0). reflexivity.
Qed.
Lemma base_pres_pos k : 0 < base_pres k.
Proof. unfold base_pres. apply Rmult_lt_0_compat; [unfold atmosphere; lra|]. induction k as [|k IH]; cbn [rprod]; [lra|]. apply Rmult_lt_0_compat; [exact IH|apply factor_pos]. Qed.
Lemma base_pres_S k : base_pres (S k) = base_pres k * factor k (width k).
Proof. unfold base_pres. cbn [rprod]. ring. Qed.
Lemma base_pres_mono i j : (i <= j)%nat -> (j <= 7)%nat -> base_pres j <= base_pres i.
Proof.
  intros I J. induction I as [|j I IH]; [lra|]. specialize (IH ltac:(lia)). pose proof (row_gap j ltac:(lia)) as G. pose proof (factor_decr j 0 (width j) ltac:(lia)) as F. rewrite factor_0 in F by lia. unfold epsilon in *. specialize (F ltac:(lra) ltac:(lra) ltac:(lra)).
  rewrite base_pres_S. pose proof (base_pres_pos j). pose proof (factor_pos j (width j)). nra.
Qed.
Lemma geopot_layer k h off : in_layer k h -> standard_atmosphere_geopot h off = Ok (base_pres k * factor k (h - row_alt k) / specific_gas_air / (icao_temperature h + off), base_pres k * factor k (h - row_alt k)).
Proof.
  intros IL. destruct (in_layer_upper k h IL) as (R & L & U). rewrite geopot_eq by assumption. destruct IL as (K & IL1 & IL2). rewrite (layers_in h k K (or_introl IL1) IL2). cbn [fst snd]. rewrite (icao_layer k h K R). reflexivity.
Qed.
Lemma pressure_decreases i j x y : in_layer i x -> in_layer j y -> x < y -> base_pres j * factor j (y - row_alt j) < base_pres i * factor i (x - row_alt i).
Proof.
  intros X Y XY. destruct (in_layer_upper i x X) as (RX & _). destruct (in_layer_upper j y Y) as (RY & _). destruct X as (I & X1 & X2). destruct Y as (J & Y1 & Y2). pose proof (width_sum i) as WI. pose proof (width_sum j) as WJ.
  pose proof (base_pres_pos i). pose proof (base_pres_pos j).
  destruct (Nat.lt_trichotomy i j) as [C|[C|C]].
  - assert (E1 : base_pres j * factor j (y - row_alt j) <= base_pres j).
    { destruct (Req_dec y (row_alt j)) as [->|N]; [rewrite Rminus_diag_eq, factor_0 by (reflexivity || lia); lra|]. pose proof (factor_decr j 0 (y - row_alt j) J) as F. rewrite factor_0 in F by lia. unfold epsilon in F. specialize (F ltac:(lra) ltac:(lra) ltac:(lra)). nra. }
    pose proof (base_pres_mono (S i) j ltac:(lia) ltac:(lia)) as E2. rewrite base_pres_S in E2.
    assert (x < row_alt (i + 1)). { destruct X2 as [X2|(-> & X2)]; [unfold epsilon in X2; lra|lia]. }
    pose proof (factor_decr i (x - row_alt i) (width i) I) as F. unfold epsilon in F. specialize (F ltac:(lra) ltac:(lra) ltac:(lra)). nra.
  - subst j. pose proof (factor_decr i (x - row_alt i) (y - row_alt i) I) as F. unfold epsilon in F. specialize (F ltac:(lra) ltac:(lra) ltac:(lra)). nra.
  - exfalso. pose proof (alt_mono (j + 1) i ltac:(lia) ltac:(lia)). lra.
Qed.
(** derivatives are local *)
Lemma deriv_local f g x l (d : R) : 0 < d -> (forall y, Rabs (y - x) < d -> f y = g y) -> derivable_pt_lim g x l -> derivable_pt_lim f x l.
Proof.
  intros D E G e He. destruct (G e He) as (a & A). assert (M : 0 < Rmin d a) by (apply Rmin_pos; [exact D|apply cond_pos]). exists (mkposreal _ M). intros h H0 H. cbn in H. pose proof (Rmin_l d a). pose proof (Rmin_r d a).
  rewrite (E (x + h)), (E x); [apply A; [exact H0|lra]| |]; [rewrite Rminus_diag_eq, Rabs_R0 by reflexivity; lra|]. replace (x + h - x) with h by ring. lra.
Qed.
(** inside a layer, all altitudes near are *)
Lemma inside_near h : inside_layer h -> exists k d, 0 < d /\ forall y, Rabs (y - h) < d -> in_layer k y.
Proof.
  intros ((L & U) & B). destruct alt_values as (A0 & A1 & A2 & A3 & A4 & A5 & A6 & A7). unfold bases, tolerance in B.
  assert (go : forall k a b, (k < 7)%nat -> row_alt k = a -> (row_alt (k + 1) - epsilon = b \/ k = 6%nat /\ row_alt 7 = b) -> a < h < b -> exists k d, 0 < d /\ forall y, Rabs (y - h) < d -> in_layer k y).
  { intros k a b K A Bd (H1 & H2). exists k, (Rmin (h - a) (b - h)). split; [apply Rmin_pos; lra|]. intros y Y. pose proof (Rmin_l (h - a) (b - h)). pose proof (Rmin_r (h - a) (b - h)). apply Rabs_def2 in Y. split; [exact K|]. split; [lra|]. destruct Bd as [Bd|(-> & Bd)]; [left|right; split; [reflexivity|]]; lra. }
  destruct (B 11000 ltac:(cbn; tauto)); [apply (go 0%nat 0 (11000 - epsilon)); [lia|exact A0|left; cbn [Nat.add]; now rewrite A1|unfold epsilon; lra]|].
  destruct (B 20000 ltac:(cbn; tauto)); [apply (go 1%nat 11000 (20000 - epsilon)); [lia|exact A1|left; cbn [Nat.add]; now rewrite A2|unfold epsilon; lra]|].
  destruct (B 32000 ltac:(cbn; tauto)); [apply (go 2%nat 20000 (32000 - epsilon)); [lia|exact A2|left; cbn [Nat.add]; now rewrite A3|unfold epsilon; lra]|].
  destruct (B 47000 ltac:(cbn; tauto)); [apply (go 3%nat 32000 (47000 - epsilon)); [lia|exact A3|left; cbn [Nat.add]; now rewrite A4|unfold epsilon; lra]|].
  destruct (B 51000 ltac:(cbn; tauto)); [apply (go 4%nat 47000 (51000 - epsilon)); [lia|exact A4|left; cbn [Nat.add]; now rewrite A5|unfold epsilon; lra]|].
  destruct (B 71000 ltac:(cbn; tauto)); [apply (go 5%nat 51000 (71000 - epsilon)); [lia|exact A5|left; cbn [Nat.add]; now rewrite A6|unfold epsilon; lra]|].
  apply (go 6%nat 71000 80000); [lia|exact A6|right; auto|lra].
Qed.
Lemma shift_deriv f a x l : derivable_pt_lim f (x - a) l -> derivable_pt_lim (fun y => f (y - a)) x l.
Proof. intros D e E. destruct (D e E) as (d & H). exists d. intros h H0 H1. replace (x + h - a) with (x - a + h) by ring. now apply H. Qed.
Lemma layer_deriv k h : in_layer k h -> derivable_pt_lim (fun y => base_pres k * factor k (y - row_alt k)) h (- (gravity0 * (base_pres k * factor k (h - row_alt k) / specific_gas_air / icao_temperature h))).
Proof.
  intros IL. destruct (in_layer_upper k h IL) as (R & _). destruct IL as (K & _). pose proof (width_sum k) as W. rewrite (icao_layer k h K R). pose proof (factor_deriv k (h - row_alt k) K ltac:(unfold epsilon; lra)) as D.
  apply shift_deriv in D. apply (derivable_pt_lim_scal _ (base_pres k)) in D. pose proof (layer_temp k (h - row_alt k) K ltac:(unfold epsilon; lra)). pose proof gas_pos.
  match type of D with derivable_pt_lim _ _ ?l => replace l with (- (gravity0 * (base_pres k * factor k (h - row_alt k) / specific_gas_air / (row_temp k + lapse k * (h - row_alt k))))) in D end; [exact D|].
  change gravity0 with std_grav. field. lra.
Qed.
(** geopotential altitude *)
Lemma geopot_mono x y : - earth_radius < x -> x < y -> earth_radius * x / (earth_radius + x) < earth_radius * y / (earth_radius + y).
Proof.
  intros X Y. unfold earth_radius in *. apply Rmult_lt_reg_r with ((6356766 + x) * (6356766 + y)); [apply Rmult_lt_0_compat; lra|].
  replace (6356766 * x / (6356766 + x) * ((6356766 + x) * (6356766 + y))) with (6356766 * x * (6356766 + y)) by (field; lra). replace (6356766 * y / (6356766 + y) * ((6356766 + x) * (6356766 + y))) with (6356766 * y * (6356766 + x)) by (field; lra). nra.
Qed.
Lemma geopot_deriv z : - earth_radius < z -> derivable_pt_lim (fun z => earth_radius * z / (earth_radius + z)) z ((earth_radius / (earth_radius + z))²).
Proof.
  intros Z. assert (P : earth_radius + z <> 0) by lra.
  pose proof (derivable_pt_lim_div (fun z => earth_radius * z) (fun z => earth_radius + z) z (earth_radius * 1) (0 + 1)) as D.
  replace ((earth_radius / (earth_radius + z))²) with ((earth_radius * 1 * (earth_radius + z) - (0 + 1) * (earth_radius * z)) / (earth_radius + z)²) by (unfold Rsqr; field; exact P).
  apply D; [apply (derivable_pt_lim_scal (fun z => z)), derivable_pt_lim_id|apply (derivable_pt_lim_plus (fun _ => earth_radius) (fun z => z)); [apply derivable_pt_lim_const|apply derivable_pt_lim_id]|exact P].
Qed.

(** ** results *)
Lemma atmosphere_domain_main h off :
  (-1e-10 < h < 80000 + 1e-10 -> exists dens pres, standard_atmosphere_geopot h off = Ok (dens, pres)) /\ (~ -1e-10 < h < 80000 + 1e-10 -> standard_atmosphere_geopot h off = Throw).
Proof.
  destruct alt_values as (A0 & _ & _ & _ & _ & _ & _ & A7). split.
  - intros (L & U). do 2 eexists. apply geopot_eq; unfold epsilon; lra.
  - intros N. unfold standard_atmosphere_geopot. change (length alt_temp - 1)%nat with 7%nat. unfold epsilon. destruct (Rlt_dec _ _); [|reflexivity]. destruct (Rlt_dec _ _); [|reflexivity]. exfalso. apply N. lra.
Qed.
Lemma atmosphere_gas_main h off : regular h -> exists dens pres, standard_atmosphere_geopot h off = Ok (dens, pres) /\ 0 < pres /\ (icao_temperature h + off <> 0 -> pres = dens * gas_constant * (icao_temperature h + off)).
Proof.
  intros Rg. destruct (regular_layer h Rg) as (k & IL). do 2 eexists. split; [exact (geopot_layer k h off IL)|]. split; [apply Rmult_lt_0_compat; [apply base_pres_pos|apply factor_pos]|].
  intros NZ. change gas_constant with specific_gas_air. pose proof gas_pos. field. lra.
Qed.
Lemma profile_layer off dens pres k h : profile (fun h => standard_atmosphere_geopot h off) 0 80000 dens pres -> in_layer k h ->
  pres h = base_pres k * factor k (h - row_alt k) /\ dens h = base_pres k * factor k (h - row_alt k) / specific_gas_air / (icao_temperature h + off).
Proof.
  intros P IL. assert (0 <= h <= 80000). { destruct (in_layer_upper k h IL) as (Rg & _). destruct IL as (K & _). pose proof (alt_mono 0 k ltac:(lia) ltac:(lia)). pose proof (alt_mono (k + 1) 7 ltac:(lia) ltac:(lia)). destruct alt_values as (A0 & _ & _ & _ & _ & _ & _ & A7). lra. }
  specialize (P h H). cbv beta in P. rewrite (geopot_layer k h off IL) in P. injection P as P1 P2. split; congruence.
Qed.
Lemma atmosphere_hydrostatic_main dens pres h : profile (fun h => standard_atmosphere_geopot h 0) 0 80000 dens pres -> inside_layer h -> derivable_pt_lim pres h (- (gravity0 * dens h)).
Proof.
  intros P IN. destruct (inside_near h IN) as (k & d & D & N). apply (deriv_local _ (fun y => base_pres k * factor k (y - row_alt k)) _ _ d D).
  - intros y Y. apply (profile_layer 0 dens pres k y P), N, Y.
  - assert (IL : in_layer k h) by (apply N; rewrite Rminus_diag_eq, Rabs_R0 by reflexivity; exact D). destruct (profile_layer 0 dens pres k h P IL) as (_ & ->). rewrite Rplus_0_r. now apply layer_deriv.
Qed.
Lemma atmosphere_decreasing_main off dens pres x y : profile (fun h => standard_atmosphere_geopot h off) 0 80000 dens pres -> regular x -> regular y -> x < y -> pres y < pres x.
Proof.
  intros P X Y XY. destruct (regular_layer x X) as (i & I). destruct (regular_layer y Y) as (j & J). destruct (profile_layer off dens pres i x P I) as (-> & _). destruct (profile_layer off dens pres j y P J) as (-> & _). now apply pressure_decreases.
Qed.
Lemma factor_cont i d : (i < 7)%nat -> - epsilon <= d <= width i -> continuity_pt (factor i) d.
Proof. intros I D. apply derivable_continuous_pt. eexists. apply (factor_deriv i d I D). Qed.
Lemma shift_cont f a x : continuity_pt f (x - a) -> continuity_pt (fun y => f (y - a)) x.
Proof. intros C. apply (continuity_pt_comp (fun y => y - a) f x); [|exact C]. apply derivable_continuous_pt. apply derivable_pt_minus; [apply derivable_pt_id|apply derivable_pt_const]. Qed.
Lemma window_cont k h : (S k < 7)%nat -> row_alt (S k) - epsilon <= h <= row_alt (S k) -> continuity_pt (fun y => base_pres k * factor k (y - row_alt k) * factor (S k) (y - row_alt (S k))) h.
Proof.
  intros K H. pose proof (row_gap k ltac:(lia)). pose proof (row_gap (S k) K). pose proof (width_sum k) as W. rewrite Nat.add_1_r in W.
  apply (continuity_pt_mult (fun y => base_pres k * factor k (y - row_alt k)) (fun y => factor (S k) (y - row_alt (S k)))); [apply (continuity_pt_scal (fun y => factor k (y - row_alt k)))|]; apply (shift_cont (factor _)); apply factor_cont; unfold epsilon in *; try lia; lra.
Qed.
Lemma glue_cont f g1 g2 x (d : R) : 0 < d -> (forall y, Rabs (y - x) < d -> f y = g1 y \/ f y = g2 y) -> f x = g1 x -> f x = g2 x -> continuity_pt g1 x -> continuity_pt g2 x -> continuity_pt f x.
Proof.
  intros D F E1 E2 C1 C2 e E. destruct (C1 e E) as (a1 & A1 & H1). destruct (C2 e E) as (a2 & A2 & H2). cbn in H1, H2. unfold R_dist in H1, H2. exists (Rmin d (Rmin a1 a2)). split; [repeat apply Rmin_pos; assumption|].
  intros y (Dy & Y). cbn in Y |- *. unfold R_dist in *. pose proof (Rmin_l d (Rmin a1 a2)). pose proof (Rmin_r d (Rmin a1 a2)). pose proof (Rmin_l a1 a2). pose proof (Rmin_r a1 a2).
  destruct (F y ltac:(lra)) as [-> | ->]; [rewrite E1; apply H1|rewrite E2; apply H2]; (split; [exact Dy|lra]).
Qed.
Lemma base_cases b : In b bases -> exists k, (S k < 7)%nat /\ b = row_alt (S k).
Proof.
  destruct alt_values as (A0 & A1 & A2 & A3 & A4 & A5 & A6 & A7). unfold bases. cbn [In]. intros [<-|[<-|[<-|[<-|[<-|[<-|[]]]]]]]; [exists 0%nat|exists 1%nat|exists 2%nat|exists 3%nat|exists 4%nat|exists 5%nat]; (split; [lia|symmetry; assumption]).
Qed.
Lemma profile_window off dens pres k h : profile (fun h => standard_atmosphere_geopot h off) 0 80000 dens pres -> (S k < 7)%nat -> row_alt (S k) - epsilon < h <= row_alt (S k) -> pres h = base_pres k * factor k (h - row_alt k) * factor (S k) (h - row_alt (S k)).
Proof.
  intros P K H. pose proof (alt_mono 0 k ltac:(lia) ltac:(lia)). pose proof (alt_mono (S k) 7 ltac:(lia) ltac:(lia)). destruct alt_values as (A0 & _ & _ & _ & _ & _ & _ & A7). pose proof (row_gap k ltac:(lia)) as G. pose proof (width_sum k) as W. rewrite Nat.add_1_r in W.
  specialize (P h ltac:(unfold epsilon in *; lra)). cbv beta in P. rewrite geopot_eq in P by (unfold epsilon in *; lra). rewrite (layers_window h k K) in P by (rewrite Nat.add_1_r; exact H). cbn [fst snd] in P. injection P as _ P2. congruence.
Qed.
Lemma atmosphere_continuous_main off dens pres b : profile (fun h => standard_atmosphere_geopot h off) 0 80000 dens pres -> In b bases -> continuity_pt pres b.
Proof.
  intros P B. destruct (base_cases b B) as (k & K & ->). pose proof (row_gap (S k) K) as G. pose proof (width_sum (S k)) as W'. pose proof (width_sum k) as W. rewrite Nat.add_1_r in W.
  assert (D : 0 < Rmin epsilon (width (S k) - epsilon)) by (apply Rmin_pos; unfold epsilon in *; lra).
  assert (IL : in_layer (S k) (row_alt (S k))) by (split; [exact K|]; split; [lra|left; lra]).
  apply (glue_cont pres (fun y => base_pres k * factor k (y - row_alt k) * factor (S k) (y - row_alt (S k))) (fun y => base_pres (S k) * factor (S k) (y - row_alt (S k))) _ _ D).
  - intros y Y. pose proof (Rmin_l epsilon (width (S k) - epsilon)). pose proof (Rmin_r epsilon (width (S k) - epsilon)). apply Rabs_def2 in Y. destruct (Rle_dec (row_alt (S k)) y) as [Le|Nl].
    + right. apply (profile_layer off dens pres (S k) y P). split; [exact K|]. split; [exact Le|left; lra].
    + left. apply (profile_window off dens pres k y P K). lra.
  - apply (profile_window off dens pres k _ P K). unfold epsilon. lra.
  - apply (profile_layer off dens pres (S k) _ P IL).
  - apply window_cont; [exact K|unfold epsilon; lra].
  - apply (continuity_pt_scal (fun y => factor (S k) (y - row_alt (S k)))), (shift_cont (factor _)), factor_cont; [exact K|unfold epsilon in *; lra].
Qed.
(** the pressure jumps up where the tolerance starts *)
Lemma atmosphere_jump_main off dens pres b : profile (fun h => standard_atmosphere_geopot h off) 0 80000 dens pres -> In b bases -> exists h, b - tolerance < h < b /\ pres (b - tolerance) < pres h.
Proof.
  intros P B. destruct (base_cases b B) as (k & K & ->). change tolerance with epsilon. pose proof (row_gap k ltac:(lia)) as G'. pose proof (row_gap (S k) K) as G. pose proof (width_sum k) as W. rewrite Nat.add_1_r in W. set (h0 := row_alt (S k) - epsilon).
  assert (IL : in_layer k h0) by (split; [lia|]; rewrite Nat.add_1_r; unfold h0; split; [lra|left; lra]). destruct (profile_layer off dens pres k h0 P IL) as (E0 & _).
  pose proof (window_cont k h0 K ltac:(unfold h0, epsilon; lra)) as C. pose proof (base_pres_pos k). pose proof (factor_pos k (h0 - row_alt k)) as FP. pose proof (factor_decr (S k) (- epsilon) 0 K) as F. rewrite factor_0 in F by exact K. specialize (F ltac:(lra) ltac:(unfold epsilon; lra) ltac:(unfold epsilon in *; lra)).
  assert (HE : h0 - row_alt (S k) = - epsilon) by (unfold h0; ring).
  set (g := fun y => base_pres k * factor k (y - row_alt k) * factor (S k) (y - row_alt (S k))) in C. assert (GT : pres h0 < g h0). { unfold g. rewrite E0, HE. assert (0 < base_pres k * factor k (h0 - row_alt k)) by (now apply Rmult_lt_0_compat). nra. }
  destruct (C (g h0 - pres h0) ltac:(lra)) as (a & A & H1). cbn in H1. unfold R_dist in H1. set (s := Rmin (a / 2) (epsilon / 2)). assert (S0 : 0 < s) by (apply Rmin_pos; unfold epsilon; lra). assert (S1 : s <= a / 2) by apply Rmin_l. assert (S2 : s <= epsilon / 2) by apply Rmin_r.
  assert (EB : 0 < epsilon) by (unfold epsilon; lra). exists (h0 + s). split; [unfold h0; lra|]. rewrite (profile_window off dens pres k (h0 + s) P K) by (unfold h0; lra). fold (g (h0 + s)).
  specialize (H1 (h0 + s)). replace (h0 + s - h0) with s in H1 by ring. rewrite (Rabs_pos_eq s) in H1 by lra. assert (Q : Rabs (g (h0 + s) - g h0) < g h0 - pres h0). { apply H1. split; [|lra]. split; [exact I|lra]. } apply Rabs_def2 in Q. lra.
Qed.
(** geometric altitude *)
Lemma atmosphere_geometric_main off dens pres z : profile (fun h => standard_atmosphere_geopot h off) 0 80000 dens pres -> 0 <= z <= 80000 -> let h := radius * z / (radius + z) in 0 <= h <= z /\ standard_atmosphere z off = Ok (dens h, pres h).
Proof.
  intros P (L & U) h. assert (H : 0 <= h <= z).
  { unfold h, radius. split; [apply Rmult_le_pos; [lra|left; apply Rinv_0_lt_compat; lra]|]. apply Rmult_le_reg_r with (6356766 + z); [lra|]. unfold Rdiv. rewrite Rmult_assoc, Rinv_l by lra. nra. }
  split; [exact H|]. exact (P h ltac:(lra)).
Qed.
Lemma atmosphere_geometric_hydrostatic_main dens pres z : profile (fun z => standard_atmosphere z 0) 0 80000 dens pres -> 0 < z < 80000 -> inside_layer (radius * z / (radius + z)) -> derivable_pt_lim pres z (- (gravity z * dens z)).
Proof.
  intros P (L & U) IN. set (H := fun z => radius * z / (radius + z)). destruct (inside_near _ IN) as (k & d & D & N).
  assert (Z0 : - earth_radius < z) by (unfold earth_radius; lra). pose proof (geopot_deriv z Z0) as DH.
  assert (IL : in_layer k (H z)) by (apply N; unfold H; rewrite Rminus_diag_eq, Rabs_R0 by reflexivity; exact D).
  assert (PV : forall y, 0 <= y <= 80000 -> in_layer k (H y) -> pres y = base_pres k * factor k (H y - row_alt k) /\ dens y = base_pres k * factor k (H y - row_alt k) / specific_gas_air / (icao_temperature (H y) + 0)).
  { intros y Y I. specialize (P y Y). cbv beta in P. unfold standard_atmosphere in P. change (earth_radius * y / (earth_radius + y)) with (H y) in P. rewrite (geopot_layer k _ 0 I) in P. injection P as P1 P2. split; congruence. }
  assert (CH : continuity_pt H z) by (apply derivable_continuous_pt; eexists; exact DH). destruct (CH d D) as (a & A & HC). cbn in HC. unfold R_dist in HC.
  assert (M : 0 < Rmin a (Rmin z (80000 - z))) by (repeat apply Rmin_pos; lra).
  apply (deriv_local _ (fun y => base_pres k * factor k (H y - row_alt k)) _ _ _ M).
  - intros y Y. pose proof (Rmin_l a (Rmin z (80000 - z))). pose proof (Rmin_r a (Rmin z (80000 - z))). pose proof (Rmin_l z (80000 - z)). pose proof (Rmin_r z (80000 - z)). assert (Y' := Y). apply Rabs_def2 in Y'. apply PV; [lra|]. destruct (Req_dec z y) as [<-|NE]; [exact IL|]. apply N, HC. split; [split; [exact I|exact NE]|lra].
  - destruct (PV z ltac:(lra) IL) as (_ & ->). rewrite Rplus_0_r. pose proof (layer_deriv k (H z) IL) as DL. pose proof (derivable_pt_lim_comp H (fun y => base_pres k * factor k (y - row_alt k)) z _ _ DH DL) as DC.
    match type of DC with derivable_pt_lim _ _ ?l => match goal with |- derivable_pt_lim _ _ ?m => replace m with l; [exact DC|] end end.
    change earth_radius with radius. unfold gravity. ring.
Qed.
