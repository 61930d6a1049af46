(** Proofs about intersections of lines with discrete surface geometry, and geometry for which the search fails. *)
From Coq Require Import Reals List Arith ZArith Lia Lra Psatz Permutation Bool.
Import ListNotations.
From Verif Require Import RSum GeomPred_Model GeomPred_Spec GeomPred_Proofs Simplex_Model Simplex_Spec Simplex_Proofs Simplex_Proofs2.
Local Open Scope R_scope.

(** ** Crossing one simplex *)
Lemma system_eq n p0 p1 s (w : nat -> R) r x : rsum (S n) w = 1 -> x 0%nat = r -> (forall j, x (S j) = w (S j)) ->
  forall i, rsum (S n) (fun j => system p0 p1 s j i * x j) = (p0 i - s 0%nat i) + (rsum (S n) (fun j => w j * s j i) - at_param p0 p1 r i).
Proof.
  intros W X0 XS i. rewrite rsum_shift. rewrite (rsum_ext n _ (fun j => w (S j) * s (S j) i - w (S j) * s 0%nat i)) by (intros j _; rewrite XS; cbn [system]; ring).
  rewrite rsum_minus, rsum_scal_r. rewrite (rsum_shift n (fun j => w j * s j i)). rewrite rsum_shift in W. rewrite X0. cbn [system]. unfold at_param.
  set (a := rsum n (fun j => w (S j) * s (S j) i)). set (b := rsum n (fun i => w (S i))) in *. replace b with (1 - w 0%nat) by lra. ring.
Qed.

Lemma crossing_sound n solve tol p0 p1 s r : (0 < n)%nat -> exact_solver n solve -> In r (crossing n solve tol p0 p1 s) -> nearly_in_hull n tol s (at_param p0 p1 r).
Proof.
  intros N X. unfold crossing. destruct (intersects _ _ _ _); [|intros []].
  change (fun j => match j with O => fun i => - (p1 i - p0 i) | _ => fun i => s j i - s 0%nat i end) with (system p0 p1 s).
  destruct (solve (system p0 p1 s) _) as [x|] eqn:E; [|intros []]. destruct (_ && _)%bool eqn:C; [|intros []]. intros [<-|[]].
  apply andb_true_iff in C. destruct C as [C1 C2]. rewrite forallb_forall in C1. apply rle_true in C2. destruct (X _ _ _ E) as [SOL _]. destruct n as [|n]; [lia|]. cbn [Nat.sub] in *. rewrite Nat.sub_0_r in *.
  set (w := fun j => match j with O => 1 - rsum n (fun j => x (S j)) | _ => x j end). assert (W1 : rsum (S n) w = 1) by (rewrite rsum_shift; cbn [w]; unfold w; ring).
  exists w. split; [|split; [exact W1|]].
  - intros [|j] J; cbn [w]; unfold w; [lra|]. specialize (C1 (S j) ltac:(apply in_seq; lia)). now apply rle_true in C1.
  - intros i I. specialize (SOL i I). rewrite (system_eq n p0 p1 s w (x 0%nat) x W1 eq_refl (fun j => eq_refl) i) in SOL. lra.
Qed.
Lemma crossing_complete n solve tol p0 p1 s r : (0 < n)%nat -> 0 <= tol -> exact_solver n solve -> 0 < dist2 n p1 p0 -> in_hull n n s (at_param p0 p1 r) ->
  solve (system p0 p1 s) (fun i => p0 i - s 0%nat i) <> None -> In r (crossing n solve tol p0 p1 s).
Proof.
  intros N TL X D H SM. unfold crossing. rewrite (proj2 (intersects_main n (bounding_ball n n s) p0 p1 D)).
  2: { exists (at_param p0 p1 r). split; [now exists r|]. rewrite dist2_sym. apply (proj1 (bounding_ball_main n n s N)). exact H. }
  change (fun j => match j with O => fun i => - (p1 i - p0 i) | _ => fun i => s j i - s 0%nat i end) with (system p0 p1 s).
  destruct (solve (system p0 p1 s) _) as [x|] eqn:E; [|congruence]. destruct (X _ _ _ E) as [_ UNI]. destruct H as (w & W & W1 & WE). destruct n as [|n]; [lia|]. cbn [Nat.sub] in *. rewrite Nat.sub_0_r in *.
  set (y := fun j => match j with O => r | _ => w j end).
  assert (Y : forall j, (j < S n)%nat -> y j = x j). { apply UNI. intros i I. rewrite (system_eq n p0 p1 s w r y W1 eq_refl (fun j => eq_refl) i). rewrite <- (WE i I). ring. }
  assert (C1 : forallb (fun j => rle (- tol) (x j)) (seq 1 n) = true).
  { apply forallb_forall. intros j J. apply in_seq in J. apply rle_true. rewrite <- Y by lia. destruct j as [|j]; [lia|]. cbn [y]. unfold y. specialize (W (S j) ltac:(lia)). lra. }
  assert (C2 : rle (rsum n (fun j => x (S j))) (1 + tol) = true).
  { apply rle_true. rewrite (rsum_ext n _ (fun j => w (S j))) by (intros j J; rewrite <- Y by lia; reflexivity). rewrite rsum_shift in W1. specialize (W 0%nat ltac:(lia)). lra. }
  rewrite C1, C2. left. rewrite <- Y by lia. reflexivity.
Qed.

(** ** The tree *)
Lemma fold_app {A B} (f : A -> list B) l : forall a, fold_left (fun a x => a ++ f x) l a = a ++ flat_map f l.
Proof. induction l as [|x l IH]; intros a; cbn; [now rewrite app_nil_r|]. rewrite IH. now rewrite app_assoc. Qed.
Lemma fold_In {A B} (f : list B -> A -> list B) (l : list A) r : (forall x, In x l -> forall a, In r (f a x) <-> In r a \/ In r (f [] x)) ->
  forall a, In r (fold_left f l a) <-> In r a \/ exists x, In x l /\ In r (f [] x).
Proof.
  induction l as [|x l IH]; intros H a; cbn [fold_left]; [split; [now left|intros [K|(x & [] & _)]; exact K]|].
  rewrite IH by (intros y Y; apply H; now right). rewrite (H x (or_introl eq_refl) a). split.
  - intros [[K|K]|(y & Y & K)]; [now left|right; exists x; split; [now left|exact K]|right; exists y; split; [now right|exact K]].
  - intros [K|(y & [<-|Y] & K)]; [now left; left|left; now right|right; now exists y].
Qed.
Lemma recursive_acc n solve tol p0 p1 r t : forall a, In r (recursive_intersections n solve tol p0 p1 t a) <-> In r a \/ In r (recursive_intersections n solve tol p0 p1 t []).
Proof.
  induction t as [c misc children IH] using tree_rect'. intros a. cbn [recursive_intersections]. destruct (intersects _ _ _ _); [|split; [now left|intros [K|[]]; exact K]].
  rewrite Forall_forall in IH. rewrite !(fold_In _ children r) by (intros x X b; apply (IH x X)). rewrite !fold_app. rewrite in_app_iff. cbn [app In]. tauto.
Qed.
Lemma recursive_In n solve tol p0 p1 r c misc children : In r (recursive_intersections n solve tol p0 p1 (Node c misc children) []) <->
  intersects n (mk_ball (cube_center c) (side c * INR n / 4)) p0 p1 = true /\
  ((exists s, In s misc /\ In r (crossing n solve tol p0 p1 s)) \/ exists k, In k children /\ In r (recursive_intersections n solve tol p0 p1 k [])).
Proof.
  cbn [recursive_intersections]. destruct (intersects _ _ _ _); [|split; [intros []|intros [K _]; discriminate]].
  rewrite (fold_In _ children r) by (intros x X b; apply recursive_acc). rewrite fold_app. cbn [app]. rewrite in_flat_map. tauto.
Qed.
Lemma intersections_sound n solve tol p0 p1 r t : In r (intersections n solve tol t p0 p1) -> exists s, In s (sims_of t) /\ In r (crossing n solve tol p0 p1 s).
Proof.
  unfold intersections. induction t as [c misc children IH] using tree_rect'. intros H. apply recursive_In in H. destruct H as [_ [(s & S & K)|(k & K & R)]].
  - exists s. split; [apply in_or_app; now left|exact K].
  - rewrite Forall_forall in IH. destruct (IH k K R) as (s & S & X). exists s. split; [apply in_or_app; right; apply in_flat_map; now exists k|exact X].
Qed.

(** pruning is right for cubes no greater than one *)
Inductive small : tree -> Prop := small_node c misc children : side c <= 1 -> Forall small children -> small (Node c misc children).
Lemma intersections_complete n solve tol p0 p1 r t s : (0 < n)%nat -> 0 <= tol -> exact_solver n solve -> 0 < dist2 n p1 p0 -> good n t -> small t ->
  In s (sims_of t) -> in_hull n n s (at_param p0 p1 r) -> solve (system p0 p1 s) (fun i => p0 i - s 0%nat i) <> None -> In r (intersections n solve tol t p0 p1).
Proof.
  intros N TL X D G SM S H SV. unfold intersections. induction t as [c misc children IH] using tree_rect'. inversion G as [? ? ? W GC]; subst. inversion SM as [? ? ? SC SK]; subst.
  apply recursive_In. split.
  - apply intersects_main; [exact D|]. exists (at_param p0 p1 r). split; [now exists r|]. cbn [center radius_sq]. rewrite Forall_forall in W. destruct (within_hull n c s _ N (W s S) H) as [S0 SD]. rewrite dist2_sym.
    eapply Rle_trans; [exact SD|]. replace (side c * INR n / 4) with (INR n * (side c * 1 / 4)) by field. apply Rmult_le_compat_l; [apply pos_INR|]. assert (side c * side c <= side c * 1) by (apply Rmult_le_compat_l; lra). lra.
  - cbn [sims_of] in S. apply in_app_or in S. destruct S as [S|S]; [left; exists s; split; [exact S|now apply crossing_complete]|right].
    apply in_flat_map in S. destruct S as (k & K & S). rewrite Forall_forall in IH, GC, SK. exists k. split; [exact K|]. apply IH; auto.
Qed.
Lemma sort_small n : forall fuel c misc t, 0 <= side c <= 1 -> sort_simplices fuel n c misc = Some t -> small t.
Proof.
  induction fuel as [|fuel IH]; intros c misc t SC; cbn [sort_simplices]; [discriminate|].
  destruct (distribute n (map (child n c) (seq 0 (2 ^ n))) misc) as [l remaining] eqn:D. destruct (distribute_perm _ _ _ _ _ D) as [_ F]. clear D.
  set (f := fun k => if (100 <? length (snd k))%nat then sort_simplices fuel n (fst k) (snd k) else Some (Node (fst k) (snd k) [])).
  destruct (all_some (map f l)) as [children|] eqn:A; [|discriminate]. intros [= <-]. apply all_some_In in A. constructor; [lra|].
  induction A as [|k t l children E A IHA]; constructor.
  - inversion F as [|? ? [KC _] _]; subst. apply in_map_iff in KC. destruct KC as (j & KC & _). assert (SK : side (fst k) = side c / 2) by (rewrite <- KC; reflexivity).
    unfold f in E. destruct (100 <? length (snd k))%nat; [apply (IH _ _ _) in E; [exact E|lra]|]. injection E as <-. constructor; [lra|constructor].
  - apply IHA. now inversion F.
Qed.

(** the side of the root is the greatest extent of the surface *)
Lemma box_min_in n (sims : list simplex) i : forall a, let b := fold_left (fun a s => fold_left (fun a v => Rmin a (s v i)) (seq 0 n) a) sims a in b = a \/ exists s v, In s sims /\ (v < n)%nat /\ b = s v i.
Proof.
  assert (F : forall (g : nat -> R) l a, fold_left (fun a v => Rmin a (g v)) l a = a \/ exists v, In v l /\ fold_left (fun a v => Rmin a (g v)) l a = g v).
  { intros g. induction l as [|v l IH]; intros a; cbn [fold_left]; [now left|]. destruct (IH (Rmin a (g v))) as [->|(w & W & E)]; [|right; exists w; split; [now right|exact E]].
    unfold Rmin. destruct (Rle_dec a (g v)); [now left|right; exists v; split; [now left|reflexivity]]. }
  induction sims as [|s sims IH]; intros a; cbn [fold_left]; cbn zeta; [now left|]. destruct (IH (fold_left (fun a v => Rmin a (s v i)) (seq 0 n) a)) as [E|(s' & v & S & V & E)]; cbn zeta in E; rewrite E.
  - destruct (F (fun v => s v i) (seq 0 n) a) as [->|(v & V & ->)]; [now left|]. right. exists s, v. split; [now left|]. split; [apply in_seq in V; lia|reflexivity].
  - right. exists s', v. split; [now right|]. now split.
Qed.
Lemma box_max_in n (sims : list simplex) i : forall a, let b := fold_left (fun a s => fold_left (fun a v => Rmax a (s v i)) (seq 0 n) a) sims a in b = a \/ exists s v, In s sims /\ (v < n)%nat /\ b = s v i.
Proof.
  assert (F : forall (g : nat -> R) l a, fold_left (fun a v => Rmax a (g v)) l a = a \/ exists v, In v l /\ fold_left (fun a v => Rmax a (g v)) l a = g v).
  { intros g. induction l as [|v l IH]; intros a; cbn [fold_left]; [now left|]. destruct (IH (Rmax a (g v))) as [->|(w & W & E)]; [|right; exists w; split; [now right|exact E]].
    unfold Rmax. destruct (Rle_dec a (g v)); [right; exists v; split; [now left|reflexivity]|now left]. }
  induction sims as [|s sims IH]; intros a; cbn [fold_left]; cbn zeta; [now left|]. destruct (IH (fold_left (fun a v => Rmax a (s v i)) (seq 0 n) a)) as [E|(s' & v & S & V & E)]; cbn zeta in E; rewrite E.
  - destruct (F (fun v => s v i) (seq 0 n) a) as [->|(v & V & ->)]; [now left|]. right. exists s, v. split; [now left|]. split; [apply in_seq in V; lia|reflexivity].
  - right. exists s', v. split; [now right|]. now split.
Qed.
Lemma root_side n huge (sims : list simplex) s0 : (0 < n)%nat -> In s0 sims -> (forall s v i, In s sims -> (v < n)%nat -> (i < n)%nat -> - huge <= s v i <= huge) -> fits_unit n sims ->
  0 <= side (root_cube n huge sims) <= 1.
Proof.
  intros N S0 B U. cbn [side root_cube]. split.
  - pose proof (root_within n huge sims) as W. rewrite Forall_forall in W. destruct (W s0 S0 0%nat 0%nat N N) as [A C]. cbn [side root_cube] in *. lra.
  - destruct (max_coeff_in (n - 1) (fun i => box_max n huge sims i - box_min n huge sims i)) as (i & I & ->).
    assert (I' : (i < n)%nat) by lia. pose proof (B s0 0%nat i S0 N I') as B0.
    assert (M1 : exists s v, In s sims /\ (v < n)%nat /\ box_min n huge sims i = s v i).
    { destruct (box_min_in n sims i huge) as [E|E]; cbn zeta in E; [|exact E]. exists s0, 0%nat. split; [exact S0|]. split; [exact N|]. pose proof (proj2 (box_min_le n sims i huge) s0 0%nat S0 N) as K. unfold box_min. cbn zeta in K. lra. }
    assert (M2 : exists s v, In s sims /\ (v < n)%nat /\ box_max n huge sims i = s v i).
    { destruct (box_max_in n sims i (- huge)) as [E|E]; cbn zeta in E; [|exact E]. exists s0, 0%nat. split; [exact S0|]. split; [exact N|]. pose proof (proj2 (box_max_ge n sims i (- huge)) s0 0%nat S0 N) as K. unfold box_max. cbn zeta in K. lra. }
    destruct M1 as (s & v & S & V & ->). destruct M2 as (s' & v' & S' & V' & ->). now apply U.
Qed.

(** ** Cramer's rule *)
Definition cramer (M : nat -> point) (b : point) : option point :=
  let det := M 0%nat 0%nat * M 1%nat 1%nat - M 1%nat 0%nat * M 0%nat 1%nat in
  if Req_EM_T det 0 then None
  else Some (fun j => match j with O => (b 0%nat * M 1%nat 1%nat - M 1%nat 0%nat * b 1%nat) / det | _ => (M 0%nat 0%nat * b 1%nat - b 0%nat * M 0%nat 1%nat) / det end).
Lemma cramer_exact : exact_solver 2 cramer.
Proof.
  intros M b x. unfold cramer. destruct (Req_EM_T _ 0) as [|NZ]; [discriminate|]. intros [= <-]. split.
  - intros [|[|i]] I; [| |lia]; cbn [rsum]; field; exact NZ.
  - intros y Y. pose proof (Y 0%nat ltac:(lia)) as Y0. pose proof (Y 1%nat ltac:(lia)) as Y1. cbn [rsum] in Y0, Y1. intros [|[|j]] J; [| |lia]; rewrite <- Y0, <- Y1; field; exact NZ.
Qed.

(** ** A surface whose sorting does not end *)
Definition third : simplex := fun _ _ => 1 / 3.
Definition dyadic (c : cube) : Prop := exists m (a : nat -> Z), side c = / 2 ^ m /\ forall i, (i < 2)%nat -> origin c i = IZR (a i) / 2 ^ m /\ IZR (a i) / 2 ^ m < 1 / 3 < IZR (a i + 1) / 2 ^ m.
Lemma third_fits c : fits 2 c third = true <-> forall i, (i < 2)%nat -> origin c i < 1 / 3 < origin c i + side c.
Proof. rewrite fits_iff by lia. unfold third. split; [intros H i I; apply (H 0%nat i); [lia|exact I]|intros H v i _ I; now apply H]. Qed.
Lemma third_odd m : forall a, (3 * a <> 2 ^ Z.of_nat m)%Z.
Proof.
  intros a E. assert (P : (2 ^ Z.of_nat m mod 3 = 1 \/ 2 ^ Z.of_nat m mod 3 = 2)%Z).
  { clear. induction m as [|m IH]; [now left|]. rewrite Nat2Z.inj_succ, Z.pow_succ_r by lia. rewrite Zmult_mod. destruct IH as [-> | ->]; [right|left]; reflexivity. }
  rewrite <- E in P. rewrite Z.mul_comm, Z_mod_mult in P. lia.
Qed.
Lemma pow2_IZR m : 2 ^ m = IZR (2 ^ Z.of_nat m).
Proof. rewrite <- pow_IZR. reflexivity. Qed.
Lemma dyadic_child c : dyadic c -> (exists k, (k < 4)%nat /\ fits 2 (child 2 c k) third = true) /\ forall k, (k < 4)%nat -> fits 2 (child 2 c k) third = true -> dyadic (child 2 c k).
Proof.
  intros (m & a & S & O). assert (P : 0 < 2 ^ m) by (apply pow_lt; lra). assert (PI : 0 < / 2 ^ m) by (now apply Rinv_0_lt_compat).
  assert (HALF : forall i, (i < 2)%nat -> exists bt, (bt < 2)%nat /\ origin c i + side c / 2 * INR bt < 1 / 3 < origin c i + side c / 2 * INR bt + side c / 2).
  { intros i I. destruct (O i I) as [OI [L U]]. rewrite S, OI. assert (NE : 1 / 3 <> IZR (a i) / 2 ^ m + / 2 ^ m / 2).
    { intros E. apply (third_odd (Datatypes.S m) (2 * a i + 1)%Z). apply eq_IZR. rewrite mult_IZR, plus_IZR, mult_IZR, <- pow2_IZR. cbn [pow]. apply Rmult_eq_reg_r with (/ 2 ^ m / 6); [|lra].
      replace (2 * 2 ^ m * (/ 2 ^ m / 6)) with (1 / 3) by (field; lra). rewrite E. field. lra. }
    rewrite plus_IZR in U. replace ((IZR (a i) + 1) / 2 ^ m) with (IZR (a i) / 2 ^ m + / 2 ^ m) in U by (field; lra).
    destruct (Rlt_dec (1 / 3) (IZR (a i) / 2 ^ m + / 2 ^ m / 2)); [exists 0%nat|exists 1%nat]; (split; [lia|]); cbn [INR]; lra. }
  split.
  - destruct (HALF 0%nat ltac:(lia)) as (b0 & B0 & H0). destruct (HALF 1%nat ltac:(lia)) as (b1 & B1 & H1). exists (2 * b0 + b1)%nat. split; [lia|]. apply third_fits. intros i I. cbn [origin side child].
    destruct i as [|[|i]]; [| |lia]; destruct b0 as [|[|b0]]; try lia; destruct b1 as [|[|b1]]; try lia; assumption.
  - intros k K F. rewrite third_fits in F. exists (Datatypes.S m), (fun i => (2 * a i + Z.of_nat ((k / 2 ^ (2 - 1 - i)) mod 2))%Z). split; [cbn [side child pow]; rewrite S; field; lra|].
    intros i I. specialize (F i I). cbn [origin side child] in *. destruct (O i I) as [OI _]. rewrite S, OI in *. set (bt := ((k / 2 ^ (2 - 1 - i)) mod 2)%nat) in *.
    assert (E : IZR (a i) / 2 ^ m + / 2 ^ m / 2 * INR bt = IZR (2 * a i + Z.of_nat bt) / 2 ^ Datatypes.S m) by (rewrite plus_IZR, mult_IZR, <- INR_IZR_INZ; cbn [pow]; field; lra).
    split; [exact E|]. rewrite <- E. rewrite plus_IZR. replace ((IZR (2 * a i + Z.of_nat bt) + 1) / 2 ^ Datatypes.S m) with (IZR (2 * a i + Z.of_nat bt) / 2 ^ Datatypes.S m + / 2 ^ m / 2) by (cbn [pow]; field; lra).
    rewrite <- E. exact F.
Qed.
Lemma partition_repeat {A} (f : A -> bool) x m r : partition f (repeat x m ++ r) = let (a, b) := partition f r in if f x then (repeat x m ++ a, b) else (a, repeat x m ++ b).
Proof. induction m as [|m IH]; cbn [repeat app partition]; [destruct (partition f r); now destruct (f x)|]. rewrite IH. destruct (partition f r). now destruct (f x). Qed.
Lemma distribute_repeat n x m cs : existsb (fun c => fits n c x) cs = true -> forall r, exists c r', In c cs /\ fits n c x = true /\ In (c, repeat x m ++ r') (fst (distribute n cs (repeat x m ++ r))).
Proof.
  induction cs as [|c cs IH]; cbn [existsb]; [discriminate|]. intros E r. cbn [distribute]. rewrite partition_repeat. destruct (partition (fits n c) r) as [a b]. destruct (fits n c x) eqn:F.
  - destruct (distribute n cs b). exists c, a. split; [now left|]. split; [exact F|now left].
  - cbn in E. destruct (IH E b) as (c' & r' & C & F' & I). destruct (distribute n cs (repeat x m ++ b)) as [l d] eqn:D. exists c', r'. split; [now right|]. split; [exact F'|now right].
Qed.
Lemma all_some_None {A B} (f : A -> option B) l a : In a l -> f a = None -> all_some (map f l) = None.
Proof. induction l as [|b l IH]; [intros []|]. intros [->|I] E; cbn; [now rewrite E|]. destruct (f b); [|reflexivity]. now rewrite IH. Qed.
Lemma sort_endless fuel : forall c r, dyadic c -> sort_simplices fuel 2 c (repeat third 101 ++ r) = None.
Proof.
  induction fuel as [|fuel IH]; intros c r D; cbn [sort_simplices]; [reflexivity|]. destruct (dyadic_child c D) as [(k & K & F) N].
  destruct (distribute_repeat 2 third 101 (map (child 2 c) (seq 0 (2 ^ 2)))) with (r := r) as (c' & r' & C & F' & I).
  { apply existsb_exists. exists (child 2 c k). split; [|exact F]. apply in_map. apply in_seq. cbn. lia. }
  destruct (distribute 2 _ _) as [l d]. cbn [fst] in I. rewrite (all_some_None _ _ _ I); [reflexivity|]. cbn [fst snd]. rewrite app_length, repeat_length.
  replace (100 <? 101 + length r')%nat with true by (symmetry; apply Nat.ltb_lt; lia). apply IH. apply in_map_iff in C. destruct C as (j & <- & J). apply in_seq in J. apply N; [cbn in J; lia|exact F'].
Qed.

(** ** Main lemmas *)
Lemma construct_short n huge sims : (0 < n)%nat -> (length sims <= 100)%nat -> exists t, construct 1 n huge sims = Some t.
Proof.
  intros N S. unfold construct. cbn [sort_simplices].
  destruct (distribute n (map (child n (root_cube n huge sims)) (seq 0 (2 ^ n))) sims) as [l remaining] eqn:E. destruct (distribute_perm _ _ _ _ _ E) as [P _].
  match goal with |- exists t, option_map _ (all_some (map ?f ?l)) = Some t => destruct (all_some_total f l) as (r & R); [|rewrite R; eexists; reflexivity] end.
  intros k K. assert (L : (length (snd k) <= 100)%nat).
  { apply Permutation_length in P. rewrite app_length in P. assert (length (snd k) <= length (flat_map snd l))%nat; [|lia]. clear - K. induction l as [|k0 l IH]; [contradiction|].
    cbn [flat_map]. rewrite app_length. destruct K as [<-|K]; [lia|]. specialize (IH K). lia. }
  destruct (Nat.ltb_spec 100 (length (snd k))); [lia|]. now eexists.
Qed.
Lemma nearest_any_tree n huge sims q max_distance guess fuel t : n = 2%nat \/ n = 3%nat -> construct fuel n huge sims = Some t -> 0 <= max_distance -> 0 < guess ->
  exists fuel0, forall fuel', (fuel0 <= fuel')%nat -> exists r, nearest_point fuel' n huge t q max_distance guess = Some (Some r) /\ search_result n sims q max_distance r.
Proof.
  intros N T MX G. destruct (pow_exceeds (max_distance / guess)) as (m & M). exists (S m). intros fuel' L'.
  destruct (construct_ok fuel n huge sims t ltac:(lia) T) as (GT & P & _).
  assert (B : max_distance <= guess * 2 ^ m). { apply Rmult_le_reg_r with (/ guess); [now apply Rinv_0_lt_compat|]. replace (guess * 2 ^ m * / guess) with (2 ^ m) by (field; lra). unfold Rdiv in M. lra. }
  destruct (search n huge t q max_distance N MX GT m guess fuel' G B ltac:(lia)) as (r & R & (RR & S)). exists r. split; [exact R|]. split; [exact RR|].
  destruct (empty r).
  - intros p K. apply S. apply (on_surface_perm n sims); [now apply Permutation_sym|exact K].
  - destruct S as ((K1 & K2) & DD). split; [|exact DD]. split; [now apply (on_surface_perm n _ _ _ P)|]. intros x K. apply K2. apply (on_surface_perm n sims); [now apply Permutation_sym|exact K].
Qed.
Lemma crossings_main n huge solve tol sims fuel t p0 p1 :
  (0 < n)%nat -> 0 <= tol -> exact_solver n solve -> construct fuel n huge sims = Some t ->
  (forall r, In r (intersections n solve tol t p0 p1) -> exists s, In s sims /\ nearly_in_hull n tol s (at_param p0 p1 r)) /\
  (bounded n huge sims -> fits_unit n sims -> 0 < dist2 n p1 p0 ->
    forall s r, In s sims -> in_hull n n s (at_param p0 p1 r) -> solvable solve p0 p1 s -> In r (intersections n solve tol t p0 p1)).
Proof.
  intros N TL X C. destruct (construct_ok fuel n huge sims t N C) as (G & P & _). split.
  - intros r R. destruct (intersections_sound _ _ _ _ _ _ _ R) as (s & S & K). exists s. split; [now apply (Permutation_in s P)|]. eapply crossing_sound; eauto.
  - intros B U D s r S H SV. eapply intersections_complete; eauto.
    + eapply sort_small; [|exact C]. now apply (root_side n huge sims s).
    + apply (Permutation_in s (Permutation_sym P)). exact S.
Qed.

Definition long_diagonal : simplex := fun j _ => match j with 0%nat => 0 | _ => 100 end.
Definition at_xy (x y : R) : point := fun i => match i with 0%nat => x | _ => y end.
Lemma long_root : let c := root_cube 2 1000 [long_diagonal] in (forall i, origin c i = 0) /\ side c = 100.
Proof.
  assert (A : forall i, box_min 2 1000 [long_diagonal] i = 0). { intros i. unfold box_min. cbn. unfold Rmin. repeat destruct (Rle_dec _ _); lra. }
  assert (B : forall i, box_max 2 1000 [long_diagonal] i = 100). { intros i. unfold box_max. cbn. unfold Rmax. repeat destruct (Rle_dec _ _); lra. }
  split; [exact A|]. cbn [side root_cube Nat.sub max_coeff]. rewrite !A, !B. unfold Rmax. destruct (Rle_dec _ _); lra.
Qed.
Lemma intersections_refuted :
  ~ (forall n huge solve tol sims fuel t p0 p1, (0 < n)%nat -> 0 <= tol -> exact_solver n solve -> construct fuel n huge sims = Some t ->
     bounded n huge sims -> 0 < dist2 n p1 p0 ->
     forall s r, In s sims -> in_hull n n s (at_param p0 p1 r) -> solvable solve p0 p1 s -> In r (intersections n solve tol t p0 p1)).
Proof.
  intros H. destruct (construct_short 2 1000 [long_diagonal]) as (t & T); [lia|cbn; lia|].
  specialize (H 2%nat 1000 cramer 0 [long_diagonal] 1%nat t (at_xy 20 0) (at_xy 20 1) ltac:(lia) (Rle_refl 0) cramer_exact T).
  assert (K : In 20 (intersections 2 cramer 0 t (at_xy 20 0) (at_xy 20 1))).
  { eapply H with (s := long_diagonal).
    - intros s v i [<-|[]] V I. unfold long_diagonal. destruct v; lra.
    - unfold dist2, at_xy. cbn [rsum]. lra.
    - now left.
    - exists (fun j => match j with 0%nat => 4 / 5 | _ => 1 / 5 end). split; [intros [|j] _; lra|]. split; [cbn; lra|]. intros [|[|i]] I; try lia; unfold at_param, at_xy, long_diagonal; cbn [rsum]; lra.
    - unfold solvable, cramer, system, at_xy, long_diagonal. destruct (Req_EM_T _ 0) as [E|E]; [lra|discriminate]. }
  destruct (construct_ok 1 2 1000 [long_diagonal] t ltac:(lia) T) as (_ & _ & C). destruct t as [c misc children]. cbn [node_cube] in C. subst c. unfold intersections in K. apply recursive_In in K. destruct K as [K _].
  apply intersects_main in K; [|unfold dist2, at_xy; cbn [rsum]; lra]. destruct K as (p & (r & P) & D). cbn [center radius_sq] in D. destruct long_root as [O S]. rewrite S in D.
  assert (X : p 0%nat = 20) by (rewrite P by lia; unfold at_param, at_xy; lra). unfold dist2, cube_center in D. cbn [rsum INR] in D. rewrite S, !O, X in D. pose proof (Rle_0_sqr (0 + / 2 * 100 - p 1%nat)) as Q. unfold Rsqr in Q. lra.
Qed.

Lemma sort_refuted huge : 1 <= huge -> exists sims, bounded 2 1 sims /\ forall fuel, construct fuel 2 huge sims = None.
Proof.
  intros HU. set (e := (fun j _ => match j with 0%nat => 0 | _ => 1 end) : simplex). set (sims := repeat third 101 ++ [e]). exists sims. split.
  - intros s v i S _ _. apply in_app_or in S. destruct S as [S|[<-|[]]]; [apply repeat_spec in S; subst s; unfold third; lra|]. unfold e. destruct v; lra.
  - intros fuel. apply sort_endless. assert (IN3 : forall s v i, In s sims -> (v < 2)%nat -> 0 <= s v i <= 1).
    { intros s v i S _. apply in_app_or in S. destruct S as [S|[<-|[]]]; [apply repeat_spec in S; subst s; unfold third; lra|]. unfold e. destruct v; lra. }
    assert (EI : In e sims) by (apply in_or_app; right; now left).
    assert (A : forall i, box_min 2 huge sims i = 0).
    { intros i. pose proof (proj2 (box_min_le 2 sims i huge) e 0%nat EI ltac:(lia)) as K. cbn zeta in K. change (e 0%nat i) with 0 in K. unfold box_min.
      destruct (box_min_in 2 sims i huge) as [E|(s & v & S & V & E)]; cbn zeta in E; [lra|]. specialize (IN3 s v i S V). lra. }
    assert (B : forall i, box_max 2 huge sims i = 1).
    { intros i. pose proof (proj2 (box_max_ge 2 sims i (- huge)) e 1%nat EI ltac:(lia)) as K. cbn zeta in K. change (e 1%nat i) with 1 in K. unfold box_max.
      destruct (box_max_in 2 sims i (- huge)) as [E|(s & v & S & V & E)]; cbn zeta in E; [lra|]. specialize (IN3 s v i S V). lra. }
    exists 0%nat, (fun _ => 0%Z). cbn [side root_cube origin Nat.sub max_coeff pow]. rewrite !A, !B. split; [unfold Rmax; destruct (Rle_dec _ _); lra|]. intros i _. rewrite A. cbn. lra.
Qed.
