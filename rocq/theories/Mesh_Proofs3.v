(** Constructors and destructors of connections; histories of calls. *)
From Coq Require Import ZArith List Bool Reals Permutation Lia.
From Verif Require Import Outcome Math_Model ListUtil Loop Connection_Model Mesh_Model Mesh_Spec Mesh_Proofs Mesh_Proofs2.
Import ListNotations.
Local Open Scope Z_scope.
Local Arguments face_dec : simpl never.
Local Arguments i_face : simpl never.
Local Arguments Nat.ltb : simpl never.
Local Arguments Nat.leb : simpl never.
Local Arguments face_number : simpl never.

Lemma ends_in_of : forall m d f s, In (f, s) (type_ends (of_type d m)) -> In (f, s) (ends m).
Proof. intros m d f s H. apply (Permutation_in _ (Permutation_sym (ends_of d m))). apply in_or_app. now left. Qed.
Lemma grow_perm : forall d t t' m m' new, of_type d m = t -> Permutation (type_ends t') (new ++ type_ends t) -> of_type d m' = t' -> of_type (negb d) m' = of_type (negb d) m ->
  Permutation (ends m') (new ++ ends m).
Proof. intros d t t' m m' new <- P D O. rewrite (ends_of d m'), (ends_of d m), D, O, P. now rewrite app_assoc. Qed.

Lemma same_elems_change : forall d t m f, elems t = elems (of_type d m) -> next_sn t = next_sn (of_type d m) -> forall i, same_elems m (with_id i (with_type d t (with_faces f m))).
Proof. intros d t m f E S i. unfold same_elems. cbn. repeat split; intros d'; destruct d, d'; cbn; auto. Qed.

(** *** conformal connections *)
Lemma new_con_spec : forall d a0 a1 dr m, wf m -> In a0 (elements m) -> In a1 (elements m) -> con_kind d (mk_con (next_id m) a0 a1 dr) ->
  new_con d a0 a1 dr m = Undefined
  \/ exists m', new_con d a0 a1 dr m = Done m' tt /\ wf m' /\ grows m m' (con_ends (mk_con (next_id m) a0 a1 dr)).
Proof.
  intros d a0 a1 dr m W I0 I1 KD. unfold new_con. destruct (Nat.ltb_spec (dim0 dr) (n_dim m)) as [D0|]; [|now left].
  destruct (Nat.ltb_spec (dim1 dr) (n_dim m)) as [D1|]; [|now left]. cbn [andb]. right.
  pose proof (wf_dim _ W) as ND. unfold set_face. rewrite !i_face_number. cbn [i_dim face_sign].
  pose proof (face_number_bound (dim0 dr) (sign0 dr) 3). pose proof (face_number_bound (dim1 dr) (sign1 dr) 3).
  rewrite !(proj2 (Nat.ltb_lt _ _)) by lia. eexists. split; [reflexivity|]. set (c := mk_con _ _ _ _).
  match goal with |- context [with_faces ?f (with_faces ?g m)] => set (F := f); set (G := g) end.
  change (with_faces F (with_faces G m)) with (with_faces F m).
  assert (OF : of_type d (with_faces F m) = of_type d m) by now destruct d. rewrite !OF. set (t := with_cons _ _). pose proof (wf_of m W d) as WT.
  assert (T1 : of_type d (with_id (S (next_id m)) (with_type d t (with_faces F m))) = t) by now destruct d.
  assert (T2 : of_type (negb d) (with_id (S (next_id m)) (with_type d t (with_faces F m))) = of_type (negb d) m) by now destruct d.
  assert (P : Permutation (type_ends t) (con_ends c ++ type_ends (of_type d m))) by apply type_ends_con.
  split.
  - apply (wf_change m _ d t W); auto.
    + split; try apply WT. intros c' C. cbn in C. apply in_app_or in C. destruct C as [C|[<-|[]]]; [now apply (wt_con _ _ _ WT)|split; [cbn; lia|exact KD]].
    + intros f s J. apply (Permutation_in _ P) in J. apply in_app_or in J. destruct J as [J|J]; [|apply (wf_in _ W f s), (ends_in_of m d f s J)].
      cbn in J. destruct J as [E|[E|[]]]; injection E as <- <-; assumption.
  - split; [now apply same_elems_change|]. split; [now apply (grow_perm d (of_type d m) t)|]. cbn [with_id with_type with_faces faces]. subst F G. cbn. split.
    + intros N a i s J. rewrite !put2_spec. apply NoDup_cons_iff in N. destruct N as [N _]. cbn in N.
      destruct J as [E|[E|[]]]; injection E as <- <- <-.
      * destruct (face_dec _ _) as [E|_]; [exfalso; apply N; left; now rewrite E|]. destruct (face_dec _ _) as [_|X]; [reflexivity|congruence].
      * destruct (face_dec _ _) as [_|X]; [reflexivity|congruence].
    + intros a i N. rewrite !put2_spec. destruct (face_dec _ _) as [E|_]; [exfalso; apply N; auto|]. destruct (face_dec _ _) as [E|_]; [exfalso; apply N; auto|reflexivity].
Qed.

(** *** boundary connections *)
Definition add_bound (d : bool) (c : bound_con) (m : mesh) : mesh :=
  with_id (S (next_id m)) (with_type d (with_bounds (bounds (of_type d m) ++ [c]) (of_type d m)) (with_faces (put2 (faces m) (b_elem c) (i_face (b_dir c) false) (Some (b_id c, 0%nat))) m)).
Lemma new_bound_eq : forall d a i_d sg bc m, (i_d < 3)%nat -> new_bound d a i_d sg bc m = Done (add_bound d (mk_bound (next_id m) a i_d sg bc) m) tt.
Proof.
  intros d a i_d sg bc m B. unfold new_bound, set_face, add_bound. rewrite i_face_number. cbn [i_dim face_sign b_dir b_dim b_sign dim0 sign0 b_elem b_id].
  pose proof (face_number_bound i_d sg 3). rewrite !(proj2 (Nat.ltb_lt _ _)) by lia. now destruct d.
Qed.
Lemma new_bound_undefined : forall d a i_d sg bc m, (3 <= i_d)%nat -> new_bound d a i_d sg bc m = Undefined.
Proof.
  intros d a i_d sg bc m B. unfold new_bound, set_face. rewrite i_face_number. cbn [i_dim face_sign b_dir b_dim b_sign dim0 sign0].
  rewrite (proj2 (Nat.ltb_ge _ _)); [reflexivity|]. unfold face_number. lia.
Qed.
Lemma add_bound_spec : forall d c m, wf m -> In (b_elem c) (elements m) -> (b_dim c < 3)%nat -> fst (b_elem c) = d -> wf (add_bound d c m) /\ grows m (add_bound d c m) (bound_ends c).
Proof.
  intros d c m W I B KD. unfold add_bound. set (F := put2 _ _ _ _). set (t := with_bounds _ _). pose proof (wf_of m W d) as WT.
  assert (T1 : of_type d (with_id (S (next_id m)) (with_type d t (with_faces F m))) = t) by now destruct d.
  assert (T2 : of_type (negb d) (with_id (S (next_id m)) (with_type d t (with_faces F m))) = of_type (negb d) m) by now destruct d.
  assert (P : Permutation (type_ends t) (bound_ends c ++ type_ends (of_type d m))) by apply type_ends_bound.
  split.
  - apply (wf_change m _ d t W); auto.
    + split; try apply WT. intros c' C. cbn in C. apply in_app_or in C. destruct C as [C|[<-|[]]]; [now apply (wt_bound _ _ _ WT)|exact (conj B KD)].
    + intros f s J. apply (Permutation_in _ P) in J. apply in_app_or in J. destruct J as [J|J]; [|apply (wf_in _ W f s), (ends_in_of m d f s J)].
      cbn in J. destruct J as [E|[]]; injection E as <- <-; assumption.
  - split; [now apply same_elems_change|]. split; [now apply (grow_perm d (of_type d m) t)|]. cbn [with_id with_type with_faces faces]. subst F. rewrite i_face_number. cbn. split.
    + intros N a i s J. rewrite !put2_spec. destruct J as [E|[]]; injection E as <- <- <-. destruct (face_dec _ _) as [_|X]; [reflexivity|congruence].
    + intros a i N. rewrite !put2_spec. destruct (face_dec _ _) as [E|_]; [exfalso; apply N; auto|reflexivity].
Qed.

(** *** refined connections *)
Lemma set_fine_spec : forall l j id k m, (j < 6)%nat -> exists F, set_fine l j id k m = Some (with_faces F m)
  /\ (NoDup l -> forall n, (n < length l)%nat -> F (nth n l (false, 0)) j = Some (id, S (k + n)))
  /\ (forall a i, ~ (In a l /\ i = j) -> F a i = faces m a i).
Proof.
  induction l as [|b l IH]; intros j id k m J; cbn.
  - exists (faces m). repeat split; [now destruct m|intros; lia].
  - unfold set_face. rewrite (proj2 (Nat.ltb_lt _ _) J). destruct (IH j id (S k) (with_faces (put2 (faces m) b j (Some (id, S k))) m) J) as (F & E & V & U).
    exists F. split; [exact E|]. split.
    + intros N n L. apply NoDup_cons_iff in N. destruct N as [N N']. destruct n as [|n].
      * rewrite U by tauto. cbn. rewrite put2_spec. destruct (face_dec _ _); [f_equal; f_equal; lia|congruence].
      * rewrite V by (assumption || lia). f_equal. f_equal. lia.
    + intros a i N. rewrite U by (intros [X Y]; apply N; auto). cbn. rewrite put2_spec. destruct (face_dec _ _) as [Q|]; [|reflexivity].
      exfalso. apply N. injection Q as -> ->. auto.
Qed.
Lemma new_ref_spec : forall (d : bool) slot (coarse : addr) (fine : list addr) dr rev s0 s1 m, wf m -> In coarse (elements m) -> (forall a, In a fine -> In a (elements m)) ->
  (forall r, refined_connection (n_dim m) dr rev [s0; s1] (length fine) = Ok r -> n_fine slot = length fine) ->
  (if d then fst coarse = true /\ (forall a, In a fine -> fst a = true) /\ rev = false else dr = cart_to_dir (dim0 dr) /\ s0 = false /\ s1 = false) ->
  new_ref d slot coarse fine dr rev [s0; s1] m = Undefined
  \/ (exists f, new_ref d slot coarse fine dr rev [s0; s1] m = Refused (with_id (S (next_id m)) (with_faces f m)))
  \/ exists m' l, new_ref d slot coarse fine dr rev [s0; s1] m = Done m' tt /\ wf m' /\ grows m m' (ref_ends (mk_ref (next_id m) coarse l dr rev [s0; s1])).
Proof.
  intros d slot coarse fine dr rev s0 s1 m W IC IF NF KD. unfold new_ref. destruct (Nat.ltb_spec slot 3) as [SL|]; [|now left].
  destruct (Nat.ltb_spec (dim0 dr) (n_dim m)) as [D0|]; [|now left].
  destruct (Nat.ltb_spec (dim1 dr) (n_dim m)) as [D1|]; [|now left]. cbn [andb].
  pose proof (wf_dim _ W) as ND.
  assert (B : forall r, (i_face dr r < 6)%nat).
  { intros r. rewrite i_face_number. pose proof (face_number_bound (i_dim dr r) (face_sign dr r) 3). destruct r; cbn in *; lia. }
  unfold set_face at 1 2 3. rewrite (proj2 (Nat.ltb_lt _ _) (B rev)).
  destruct (refined_connection _ _ _ _ _) as [r| | |] eqn:R; [|right; left; eauto|now left|now left].
  destruct (select fine (fine_cons r)) as [l|] eqn:SE; [|now left]. apply select_spec in SE. destruct SE as [L IL]. rewrite (fine_cons_length _ _ _ _ _ _ R) in L.
  set (m1 := with_faces (put2 (faces m) coarse (i_face dr rev) (Some (next_id m, 0%nat))) m).
  destruct (set_fine_spec l (i_face dr (negb rev)) (next_id m) 0 m1 (B _)) as (F & -> & V & U). change (with_faces F m1) with (with_faces F m).
  assert (OF : of_type d (with_faces F m) = of_type d m) by now destruct d. rewrite OF.
  pose proof (wf_of m W d) as WT. set (c := mk_ref _ _ _ _ _ _).
  destruct (append_at_some _ slot c (refs (of_type d m))) as [rs AR]; [rewrite (wt_refs _ _ _ WT); exact SL|]. rewrite AR.
  destruct (append_at_spec _ _ _ _ _ AR) as (LR & NR & _). apply append_at_perm in AR.
  right. right. exists (with_id (S (next_id m)) (with_type d (with_refs rs (of_type d m)) (with_faces F m))), l. fold c. split; [reflexivity|].
  set (t := with_refs _ _).
  assert (T1 : of_type d (with_id (S (next_id m)) (with_type d t (with_faces F m))) = t) by now destruct d.
  assert (T2 : of_type (negb d) (with_id (S (next_id m)) (with_type d t (with_faces F m))) = of_type (negb d) m) by now destruct d.
  assert (P : Permutation (type_ends t) (ref_ends c ++ type_ends (of_type d m))) by now apply type_ends_ref.
  assert (PF : forall f, In f (map fst (ref_ends c)) -> f = (coarse, i_face dr rev) \/ In (fst f) l /\ snd f = i_face dr (negb rev)).
  { intros f. rewrite ref_faces. cbn [c r_coarse r_dir r_rev r_fine]. intros [<-|Q]; [now left|]. apply in_map_iff in Q. destruct Q as (a & <- & Q). now right. }
  split.
  - apply (wf_change m _ d t W); auto.
    + split; try apply WT.
      * cbn. rewrite LR. apply WT.
      * intros s c' S3 C. cbn in C. rewrite NR in C. destruct (Nat.eqb_spec s slot) as [->|]; [|now apply (wt_ref _ _ _ WT)].
        apply in_app_or in C. destruct C as [C|[<-|[]]]; [now apply (wt_ref _ _ _ WT)|]. split; [rewrite (NF r eq_refl); exact L|]. split; [exact (conj D0 D1)|]. split; [exists r; cbn; rewrite L; exact R|].
        destruct d; cbn; [destruct KD as (K1 & K2 & K3); split; [exact K1|]; split; [intros a A; apply K2, IL, A|]; split; [exact K3|eauto]|destruct KD as (K1 & -> & ->); auto].
    + intros f s J. apply (Permutation_in _ P) in J. apply in_app_or in J. destruct J as [J|J]; [|apply (wf_in _ W f s), (ends_in_of m d f s J)].
      apply (in_map fst) in J. cbn [fst] in J. apply PF in J. destruct J as [->|[J _]]; [exact IC|auto].
  - split; [now apply same_elems_change|]. split; [now apply (grow_perm d (of_type d m) t)|]. cbn [with_id with_type with_faces faces]. split.
    + intros N a i s J. rewrite ref_faces in N. cbn [c r_coarse r_dir r_rev r_fine] in N. apply NoDup_cons_iff in N. destruct N as [NC NL].
      assert (NDL : NoDup l) by (apply (NoDup_map_inv (fun a => (a, i_face dr (negb rev)))); exact NL).
      assert (S0 : i_face dr rev = if rev then face_number (dim1 dr) (sign1 dr) else face_number (dim0 dr) (sign0 dr)) by (rewrite i_face_number; now destruct rev).
      assert (S1 : i_face dr (negb rev) = if rev then face_number (dim0 dr) (sign0 dr) else face_number (dim1 dr) (sign1 dr)) by (rewrite i_face_number; now destruct rev).
      unfold ref_ends in J. cbn [c r_coarse r_dir r_rev r_fine r_id] in J. rewrite <- S0, <- S1 in J. destruct J as [E|J].
      * injection E as <- <- <-. rewrite U; [unfold m1; cbn [faces with_faces]; rewrite put2_spec; destruct (face_dec _ _) as [_|X]; [reflexivity|congruence]|]. intros [X Y]. apply NC. rewrite Y. apply in_map_iff. eauto.
      * apply in_map_iff in J. destruct J as (k & E & K). apply in_seq in K. injection E as <- <- <-. now rewrite V by (assumption || lia).
    + intros a i N. rewrite ref_faces in N. cbn [c r_coarse r_dir r_rev r_fine map fst] in N. rewrite U.
      * unfold m1; cbn [faces with_faces]. rewrite put2_spec. destruct (face_dec _ _) as [E|]; [|reflexivity]. exfalso. apply N. left. congruence.
      * intros [X ->]. apply N. right. apply in_map_iff. eauto.
Qed.
