(** Proofs about meshes: the connections known to the counters and to the elements. *)
From Coq Require Import ZArith List Bool Reals Permutation Lia.
From Verif Require Import Outcome Math_Model ListUtil Connection_Model Mesh_Model Mesh_Spec.
Import ListNotations.
Local Open Scope Z_scope.
Local Arguments face_dec : simpl never.
Local Arguments i_face : simpl never.
Local Arguments Nat.ltb : simpl never.
Local Arguments Nat.leb : simpl never.
Local Arguments face_number : simpl never.

Lemma addr_eqb_spec : forall a b, reflect (a = b) (addr_eqb a b).
Proof.
  intros [d s] [d' s']. unfold addr_eqb; cbn. destruct (eqb d d') eqn:E; cbn.
  - apply eqb_prop in E. subst. destruct (Z.eqb_spec s s'); constructor; congruence.
  - constructor. intros H. injection H as -> _. now rewrite eqb_reflx in E.
Qed.
Lemma put2_spec : forall A (f : addr -> nat -> A) a i x b j, put2 f a i x b j = if face_dec (b, j) (a, i) then x else f b j.
Proof.
  intros A f a i x b j. unfold put2. destruct (addr_eqb_spec b a) as [->|N]; cbn.
  - destruct (Nat.eqb_spec j i) as [->|N]; match goal with |- context [face_dec ?u ?v] => destruct (face_dec u v) end; congruence.
  - destruct (face_dec (b, j) (a, i)); congruence.
Qed.
Lemma i_face_number : forall d s, i_face d s = face_number (i_dim d s) (face_sign d s).
Proof. intros d s. unfold i_face, face_number. destruct (face_sign d s); cbn; lia. Qed.

(** ** [run_list] *)
Lemma run_list_app : forall A S (step : A -> S -> option S) l l' s,
  run_list step (l ++ l') s = match run_list step l s with Some s => run_list step l' s | None => None end.
Proof. intros A S step l l'. induction l as [|x l IH]; intros s; cbn; [reflexivity|]. destruct (step x s); [apply IH|reflexivity]. Qed.
Lemma run_list_flat : forall A B S (step : A -> S -> option S) (one : B -> S -> option S) (g : A -> list B) l,
  (forall x s, In x l -> step x s = run_list one (g x) s) -> forall s, run_list step l s = run_list one (flat_map g l) s.
Proof.
  intros A B S step one g l. induction l as [|x l IH]; intros H s; cbn; [reflexivity|]. rewrite run_list_app, <- H by now left.
  destruct (step x s); [apply IH; intros; apply H; now right|reflexivity].
Qed.
Lemma run_list_map : forall A B S (step : B -> S -> option S) (g : A -> B) l s, run_list step (map g l) s = run_list (fun x s => step (g x) s) l s.
Proof. intros A B S step g l. induction l as [|x l IH]; intros s; cbn; [reflexivity|]. destruct (step (g x) s); [apply IH|reflexivity]. Qed.
Lemma run_list_ext : forall A S (step step' : A -> S -> option S) l, (forall x s, In x l -> step x s = step' x s) -> forall s, run_list step l s = run_list step' l s.
Proof.
  intros A S step step' l. induction l as [|x l IH]; intros H s; cbn; [reflexivity|]. rewrite H by now left.
  destruct (step' x s); [apply IH; intros; apply H; now right|reflexivity].
Qed.

Definition count_end (f : face) (c : addr -> nat -> Z) := count_face (fst f) (snd f) c.
Lemma count_ends : forall l c, (forall f, In f l -> (snd f < 6)%nat) ->
  exists c', run_list count_end l c = Some c' /\ forall a i, c' a i = c a i + Z.of_nat (count_occ face_dec l (a, i)).
Proof.
  induction l as [|[b j] l IH]; intros c B.
  - exists c. split; [reflexivity|]. intros. cbn. lia.
  - cbn [run_list count_occ]. unfold count_end at 1, count_face. cbn [fst snd]. rewrite (proj2 (Nat.ltb_lt _ _)) by (apply (B (b, j)); now left).
    destruct (IH (put2 c b j (c b j + 1))) as (c' & R & V); [intros; apply B; now right|]. exists c'. split; [exact R|].
    intros a i. rewrite V, put2_spec. destruct (face_dec (a, i) (b, j)) as [E|N], (face_dec (b, j) (a, i)) as [E'|N']; try congruence.
    + injection E as -> ->. lia.
Qed.

(** ** well-formed meshes *)
Definition con_kind (is_def : bool) (c : con) : Prop :=
  if is_def then fst (c_elem0 c) = true /\ fst (c_elem1 c) = true else c_dir c = cart_to_dir (dim0 (c_dir c)).
Definition ref_kind (nd : nat) (is_def : bool) (c : ref_con) : Prop :=
  (exists r, refined_connection nd (r_dir c) (r_rev c) (r_str c) (length (r_fine c)) = Ok r)
  /\ if is_def then fst (r_coarse c) = true /\ (forall a, In a (r_fine c) -> fst a = true) /\ r_rev c = false /\ exists s0 s1, r_str c = [s0; s1]
    else r_dir c = cart_to_dir (dim0 (r_dir c)) /\ r_str c = [false; false].
Record wf_type (nd : nat) (is_def : bool) (t : by_type) : Prop := {
  wt_refs : length (refs t) = 3%nat;
  wt_con : forall c, In c (cons t) -> (dim0 (c_dir c) < nd /\ dim1 (c_dir c) < nd)%nat /\ con_kind is_def c;
  wt_ref : forall s c, (s < 3)%nat -> In c (nth s (refs t) []) -> length (r_fine c) = n_fine s /\ (dim0 (r_dir c) < nd /\ dim1 (r_dir c) < nd)%nat /\ ref_kind nd is_def c;
  wt_bound : forall c, In c (bounds t) -> (b_dim c < 3)%nat /\ fst (b_elem c) = is_def;
  wt_sn : NoDup (map fst (elems t));
  wt_next : forall e, In e (elems t) -> fst e < next_sn t;
  wt_warp : is_def = false -> forall e, In e (elems t) -> e_warp (snd e) = [] }.
Record wf (m : mesh) : Prop := {
  wf_dim : (1 <= n_dim m <= 3)%nat;
  wf_car : wf_type (n_dim m) false (car m);
  wf_def : wf_type (n_dim m) true (def m);
  wf_in : forall f s, In (f, s) (ends m) -> In (fst f) (elements m) }.

Lemma face_number_dim : forall d s, face_number d s = (2 * d + Nat.b2n s)%nat.
Proof. intros d [|]; unfold face_number; cbn; lia. Qed.
Lemma face_number_bound : forall d s n, (d < n)%nat -> (face_number d s < 2 * n)%nat.
Proof. intros d s n H. unfold face_number. destruct s; lia. Qed.

Lemma nth_map_seq : forall A (l : list A) d, map (fun k => nth k l d) (seq 0 (length l)) = l.
Proof.
  intros A l d. induction l as [|x l IH]; cbn; [reflexivity|]. f_equal. rewrite <- seq_shift, map_map. exact IH.
Qed.
Lemma ref_faces : forall c, map fst (ref_ends c) = (r_coarse c, i_face (r_dir c) (r_rev c)) :: map (fun a => (a, i_face (r_dir c) (negb (r_rev c)))) (r_fine c).
Proof.
  intros c. unfold ref_ends. cbn [map fst]. rewrite map_map. cbn [fst]. f_equal.
  - rewrite i_face_number. now destruct (r_rev c).
  - rewrite <- (nth_map_seq _ (r_fine c) (false, 0)) at 2. rewrite map_map. apply map_ext. intros k. rewrite i_face_number. now destruct (r_rev c).
Qed.
Lemma con_faces : forall c, map fst (con_ends c) = map (fun s => (c_elem c s, i_face (c_dir c) s)) [false; true].
Proof. intros c. cbn. now rewrite !i_face_number. Qed.
Lemma bound_faces : forall c, map fst (bound_ends c) = [(b_elem c, i_face (b_dir c) false)].
Proof. intros c. cbn. now rewrite i_face_number. Qed.

Lemma count_con_ends : forall c f, count_con c f = run_list count_end (map fst (con_ends c)) f.
Proof. intros c f. unfold count_con. now rewrite con_faces, run_list_map. Qed.
Lemma count_bound_ends : forall c f, count_bound c f = run_list count_end (map fst (bound_ends c)) f.
Proof. intros c f. rewrite bound_faces. cbn. unfold count_bound, count_end; cbn. now destruct (count_face _ _ _). Qed.
Lemma count_ref_ends : forall s c f, length (r_fine c) = n_fine s -> (s < 3)%nat -> count_ref s c f = run_list count_end (map fst (ref_ends c)) f.
Proof.
  intros s c f L S. rewrite ref_faces. cbn [run_list]. unfold count_ref, count_end at 1. cbn [fst snd].
  assert (P : (0 < length (r_fine c))%nat) by (rewrite L; destruct s as [|[|[|s]]]; cbn; lia).
  destruct (nth_error (r_fine c) 0) as [a|] eqn:E; [|apply nth_error_None in E; lia]. clear a E P.
  destruct (count_face _ _ _) as [g|]; [|reflexivity]. rewrite <- L. clear L S.
  rewrite run_list_map. transitivity (run_list (fun a s => count_end (a, i_face (r_dir c) (negb (r_rev c))) s) (map (fun k => nth k (r_fine c) (false, 0)) (seq 0 (length (r_fine c)))) g).
  - rewrite run_list_map. apply run_list_ext.
    intros k h K. apply in_seq in K. unfold count_end. cbn [fst snd]. now rewrite (nth_error_nth' (r_fine c) (false, 0)) by lia.
  - now rewrite nth_map_seq.
Qed.

Lemma flat_map_map_fst : forall A (g : A -> list (face * storage)) l, map fst (flat_map g l) = flat_map (fun x => map fst (g x)) l.
Proof. intros A g l. induction l as [|x l IH]; cbn; [reflexivity|]. now rewrite map_app, IH. Qed.

Lemma type_face_bound : forall nd d t f, (nd <= 3)%nat -> wf_type nd d t -> In f (map fst (type_ends t)) -> (snd f < 6)%nat.
Proof.
  intros nd d t f N W. unfold type_ends. rewrite !map_app, !flat_map_map_fst, !in_app_iff, !in_flat_map.
  intros [(c & C & I)|[(c & C & I)|(c & C & I)]].
  - destruct (wt_con _ _ _ W c C) as [[? ?] _]. rewrite con_faces in I. cbn in I. destruct I as [<-|[<-|[]]]; cbn; rewrite i_face_number; cbn;
      [pose proof (face_number_bound (dim0 (c_dir c)) (sign0 (c_dir c)) nd)|pose proof (face_number_bound (dim1 (c_dir c)) (sign1 (c_dir c)) nd)]; lia.
  - pose proof (proj1 (wt_bound _ _ _ W c C)). rewrite bound_faces in I. cbn in I. destruct I as [<-|[]]. cbn. rewrite i_face_number. cbn.
    pose proof (face_number_bound (b_dim c) (b_sign c) 3). lia.
  - apply in_concat in C. destruct C as (x & X & C). apply In_nth with (d := []) in X. destruct X as (s & S & <-). rewrite (wt_refs _ _ _ W) in S.
    destruct (wt_ref _ _ _ W s c S C) as (_ & (D0 & D1) & _). rewrite ref_faces in I. cbn in I.
    assert (B : forall r, (i_face (r_dir c) r < 6)%nat).
    { intros r. rewrite i_face_number. destruct r; cbn; [pose proof (face_number_bound (dim1 (r_dir c)) (sign1 (r_dir c)) nd)|pose proof (face_number_bound (dim0 (r_dir c)) (sign0 (r_dir c)) nd)]; lia. }
    destruct I as [<-|I]; [apply B|]. apply in_map_iff in I. destruct I as (a & <- & _). apply B.
Qed.

(** the loop over the three lists of refined connections *)
Lemma count_refs_ends : forall nd d t f, wf_type nd d t ->
  run_list (fun slot f => run_list (count_ref slot) (nth slot (refs t) []) f) [0; 1; 2]%nat f
  = run_list count_end (flat_map (fun c => map fst (ref_ends c)) (concat (refs t))) f.
Proof.
  intros nd d t f W.
  transitivity (run_list count_end (flat_map (fun s => flat_map (fun c => map fst (ref_ends c)) (nth s (refs t) [])) [0; 1; 2]%nat) f).
  - apply run_list_flat. intros s g S. apply run_list_flat. intros c h C.
    assert (s < 3)%nat by (cbn in S; lia). apply count_ref_ends; [apply (wt_ref _ _ _ W s c); auto|assumption].
  - f_equal. pose proof (wt_refs _ _ _ W) as L. destruct (refs t) as [|x [|y [|z [|? ?]]]]; try discriminate L. cbn [flat_map nth concat]. rewrite !flat_map_app. reflexivity.
Qed.

Lemma record_type : forall is_def m, (n_dim m <= 3)%nat -> wf_type (n_dim m) is_def (of_type is_def m) ->
  exists c, record_connections is_def m = Some (with_face_record c m)
  /\ forall a i, c a i = face_record m a i + Z.of_nat (count_occ face_dec (map fst (type_ends (of_type is_def m))) (a, i)).
Proof.
  intros is_def m N W. unfold record_connections. set (t := of_type is_def m) in *.
  destruct (count_ends (map fst (type_ends t)) (face_record m)) as (c & R & V).
  { intros f. apply (type_face_bound (n_dim m) is_def t); assumption. }
  exists c. split; [|exact V]. unfold type_ends in R. rewrite !map_app, !flat_map_map_fst, !run_list_app in R.
  rewrite (run_list_flat _ _ _ count_con count_end (fun c => map fst (con_ends c))) by (intros; apply count_con_ends).
  destruct (run_list count_end _ (face_record m)) as [f|]; [|discriminate R].
  rewrite (run_list_flat _ _ _ count_bound count_end (fun c => map fst (bound_ends c))) by (intros; apply count_bound_ends). rewrite run_list_app in R.
  destruct (run_list count_end (flat_map (fun c => map fst (bound_ends c)) (bounds t)) f) as [g|]; [|discriminate R].
  now rewrite (count_refs_ends (n_dim m) is_def), R by exact W.
Qed.

Lemma count_occ_app : forall A (dec : forall x y : A, {x = y} + {x <> y}) l l' x, count_occ dec (l ++ l') x = (count_occ dec l x + count_occ dec l' x)%nat.
Proof. intros A dec l l' x. induction l as [|y l IH]; cbn; [reflexivity|]. destruct (dec y x); cbn; now rewrite IH. Qed.

Lemma reset_faces : forall n l (f : addr -> nat -> Z) a i,
  fold_left (fun f a => fold_left (fun f i => put2 f a i 0) (seq 0 n) f) l f a i = if (existsb (addr_eqb a) l && (i <? n)%nat)%bool then 0 else f a i.
Proof.
  assert (I : forall n k (f : addr -> nat -> Z) b a i, fold_left (fun f i => put2 f b i 0) (seq k n) f a i = if (addr_eqb a b && (k <=? i)%nat && (i <? k + n)%nat)%bool then 0 else f a i).
  { induction n as [|n IH]; intros k f b a i; cbn [seq fold_left].
    - destruct (addr_eqb a b); cbn; [|reflexivity]. destruct (Nat.leb_spec k i); cbn; [|reflexivity]. destruct (Nat.ltb_spec i (k + 0)); [lia|reflexivity].
    - rewrite IH. unfold put2. destruct (addr_eqb a b); cbn [andb]; [|reflexivity].
      destruct (Nat.leb_spec (S k) i), (Nat.leb_spec k i), (Nat.ltb_spec i (S k + n)), (Nat.ltb_spec i (k + S n)), (Nat.eqb_spec i k); cbn; try lia; reflexivity. }
  intros n l. induction l as [|b l IH]; intros f a i; cbn [fold_left existsb]; [reflexivity|].
  rewrite IH, I. change (0 <=? i)%nat with true. rewrite andb_true_r. cbn [Nat.add].
  destruct (existsb (addr_eqb a) l); cbn; [now rewrite orb_true_r; destruct (i <? n)%nat; [|rewrite andb_false_r]|]. rewrite orb_false_r.
  destruct (addr_eqb a b), (i <? n)%nat; reflexivity.
Qed.

Lemma existsb_addr : forall a l, existsb (addr_eqb a) l = true <-> In a l.
Proof.
  intros a l. rewrite existsb_exists. split.
  - intros (b & B & E). now destruct (addr_eqb_spec a b) as [->|].
  - intros H. exists a. split; [exact H|]. now destruct (addr_eqb_spec a a).
Qed.

Lemma of_type_record : forall f d m, of_type d (with_face_record f m) = of_type d m.
Proof. intros f [|] m; reflexivity. Qed.

(** the common part of [valid] and [connect_rest]: count the connections of every face *)
Lemma count_all : forall m, wf m -> exists c, record_connections false (reset_face_record m) = Some (with_face_record c (reset_face_record m))
  /\ exists c', record_connections true (with_face_record c (reset_face_record m)) = Some (with_face_record c' m)
  /\ forall f, In f (all_faces m) -> c' (fst f) (snd f) = Z.of_nat (uses m f).
Proof.
  intros m W. destruct (record_type false (reset_face_record m)) as (c & R & V).
  { apply (wf_dim _ W). } { apply (wf_car _ W). }
  exists c. split; [exact R|]. destruct (record_type true (with_face_record c (reset_face_record m))) as (c' & R' & V').
  { apply (wf_dim _ W). } { apply (wf_def _ W). }
  exists c'. split; [exact R'|]. intros [a i] F. cbn [fst snd]. rewrite V', (of_type_record c). cbn [face_record with_face_record]. rewrite V.
  unfold all_faces in F. apply in_flat_map in F. destruct F as (b & B & F). apply in_map_iff in F. destruct F as (j & E & J). injection E as <- <-. apply in_seq in J.
  cbn [reset_face_record with_face_record face_record]. rewrite reset_faces.
  rewrite (proj2 (existsb_addr b (elements m)) B), (proj2 (Nat.ltb_lt _ _)) by lia. cbn [andb].
  unfold uses, ends. rewrite map_app, count_occ_app. cbn [of_type car def reset_face_record with_face_record]. lia.
Qed.

Lemma count_sum : forall (g : addr -> nat -> Z) (h : face -> nat) n l z,
  (forall a i, In a l -> (i < n)%nat -> g a i = Z.of_nat (h (a, i))) ->
  fold_left (fun z a => fold_left (fun z i => z + g a i) (seq 0 n) z) l z = z + Z.of_nat (total h (flat_map (fun a => map (fun i => (a, i)) (seq 0 n)) l)).
Proof.
  intros g h n l. induction l as [|a l IH]; intros z H; cbn [fold_left flat_map]; [cbn; lia|].
  rewrite IH by (intros; apply H; [now right|assumption]).
  assert (E : forall k z, (k <= n)%nat -> fold_left (fun z i => z + g a i) (seq (n - k) k) z = z + Z.of_nat (total h (map (fun i => (a, i)) (seq (n - k) k)))).
  { induction k as [|k IHk]; intros y K; [cbn; lia|]. cbn [seq fold_left map]. replace (S (n - S k)) with (n - k)%nat by lia. rewrite IHk by lia.
    rewrite H by (try (now left); lia). unfold total. cbn [map fold_right]. lia. }
  specialize (E n z (Nat.le_refl n)). rewrite Nat.sub_diag in E. rewrite E. unfold total. rewrite map_app.
  assert (FA : forall l l', fold_right Nat.add 0%nat (l ++ l') = (fold_right Nat.add 0%nat l + fold_right Nat.add 0%nat l')%nat).
  { intros l0 l'. induction l0 as [|? ? I]; cbn; [reflexivity|rewrite I; lia]. }
  rewrite FA. rewrite Nat2Z.inj_add, Z.add_assoc. reflexivity.
Qed.
Lemma fold_left_ext2 : forall A B (f g : B -> A -> B) l z, (forall z x, In x l -> f z x = g z x) -> fold_left f l z = fold_left g l z.
Proof. intros A B f g l. induction l as [|x l IH]; intros z H; cbn; [reflexivity|]. rewrite H by now left. apply IH. intros; apply H; now right. Qed.

Lemma in_all_faces : forall m a i, In (a, i) (all_faces m) <-> In a (elements m) /\ (i < 2 * n_dim m)%nat.
Proof.
  intros m a i. unfold all_faces. rewrite in_flat_map. split.
  - intros (b & B & F). apply in_map_iff in F. destruct F as (j & E & J). injection E as <- <-. apply in_seq in J. split; [exact B|lia].
  - intros [B J]. exists a. split; [exact B|]. apply in_map_iff. exists i. split; [reflexivity|]. apply in_seq. lia.
Qed.

Lemma valid_spec : forall m, wf m -> exists m', valid m = Done m' (Z.of_nat (total (fun f => uses m f - 1)%nat (all_faces m)), Z.of_nat (total (fun f => if Nat.eqb (uses m f) 0 then 1 else 0)%nat (all_faces m)))
  /\ exists c, m' = with_face_record c m.
Proof.
  intros m W. destruct (count_all m W) as (c & R & c' & R' & V').
  assert (V : forall f, In f (all_faces m) -> let '(a, i) := f in c' a i = Z.of_nat (uses m f)) by (intros [a i] F; exact (V' (a, i) F)). clear V'. unfold valid. rewrite R, R'. exists (with_face_record c' m). split; [|now exists c'].
  f_equal. f_equal.
  - rewrite <- (Z.add_0_l (Z.of_nat _)).
    transitivity (fold_left (fun z a => fold_left (fun z i => z + (if 1 <? c' a i then c' a i - 1 else 0)) (seq 0 (2 * n_dim m)) z) (elements m) 0).
    + apply fold_left_ext2. intros z a A. apply fold_left_ext2. intros z' i I. cbn [face_record with_face_record]. destruct (1 <? c' a i); lia.
    + apply (count_sum (fun a i => if 1 <? c' a i then c' a i - 1 else 0)). intros a i A I. pose proof (V (a, i) (proj2 (in_all_faces m a i) (conj A I))) as E. cbn beta iota in E. rewrite E.
      destruct (Z.ltb_spec 1 (Z.of_nat (uses m (a, i)))); lia.
  - rewrite <- (Z.add_0_l (Z.of_nat _)).
    transitivity (fold_left (fun z a => fold_left (fun z i => z + (if c' a i =? 0 then 1 else 0)) (seq 0 (2 * n_dim m)) z) (elements m) 0).
    + apply fold_left_ext2. intros z a A. apply fold_left_ext2. intros z' i I. cbn [face_record with_face_record]. destruct (c' a i =? 0); lia.
    + apply (count_sum (fun a i => if c' a i =? 0 then 1 else 0)). intros a i A I. pose proof (V (a, i) (proj2 (in_all_faces m a i) (conj A I))) as E. cbn beta iota in E. rewrite E.
      destruct (Z.eqb_spec (Z.of_nat (uses m (a, i))) 0), (Nat.eqb_spec (uses m (a, i)) 0); lia.
Qed.

Lemma total_zero : forall A (f : A -> nat) l, total f l = 0%nat <-> forall x, In x l -> f x = 0%nat.
Proof.
  intros A f l. unfold total. induction l as [|y l IH]; cbn; [split; [intros _ x []|reflexivity]|]. split.
  - intros H x [<-|X]; [lia|]. apply IH; [lia|exact X].
  - intros H. rewrite (H y) by now left. cbn. apply IH. intros; apply H; now right.
Qed.
