(** Adding extruded elements keeps the mesh sound. *)
From Coq Require Import ZArith QArith List Bool Arith Lia Permutation.
From Verif Require Import Outcome Loop ListUtil Tree_Model Tree_Spec Tree_Proofs Update_Model Update_Spec Update_Proofs1 Update_Proofs3 Update_Proofs8 Update_Proofs11 Update_Thm
  Trim_Model Trim_Spec Trim_Proofs7 Join_Model Join_Spec Join_Proofs1 Join_Proofs2 Join_Proofs3 Join_Proofs5 Join_Proofs7 Extr_Model Extr_Spec.
Import ListNotations.
Local Open Scope nat_scope.

(** ** adding connections *)
Lemma add_connected l js f : connected (add_link l js) f <-> connected js f \/ In f (uses l).
Proof.
  unfold connected. cbn [add_link j_links]. split.
  - intros (c & Hc & Hf). apply in_app_or in Hc as [Hc|[<-|[]]]; [left; eauto|now right].
  - intros [(c & Hc & Hf)|H]; [exists c; split; [apply in_or_app; now left|exact Hf]|exists l; split; [apply in_or_app; right; now left|exact H]].
Qed.
Lemma add_well n l js : well_joined n js -> right n (j_st js) l -> NoDup (uses l) -> (forall f, In f (uses l) -> ~ connected js f) -> well_joined n (add_link l js).
Proof.
  intros [Wr Wo Wf] R ND Fr. split.
  - intros c Hc. cbn [add_link j_links j_st] in *. apply in_app_or in Hc as [Hc|[<-|[]]]; auto.
  - cbn [add_link j_links]. rewrite flat_map_app. cbn [flat_map]. rewrite app_nil_r. apply NoDup_app'; auto. intros g G1 G2. apply in_flat_map in G1 as (c & Hc & Gc). apply (Fr g G2). exists c. auto.
  - intros g. rewrite add_connected. cbn [add_link j_face]. now rewrite orb_true_iff, Wf, existsb_face.
Qed.
Lemma recorded_spec js f : recorded js f = true <-> connected js f.
Proof.
  unfold recorded, connected. rewrite existsb_exists. split; intros (l & H & Hf); exists l; (split; [exact H|]); now apply existsb_face.
Qed.
Lemma connected_dec js f : {connected js f} + {~ connected js f}.
Proof. destruct (recorded js f) eqn:E; [left|right]; [now apply recorded_spec|]. intros K. apply recorded_spec in K. congruence. Qed.

(** ** one more element *)
Definition fresh : elem := mk_elem None true 0%Z false.
Definition longer (st : state) : state := mk_state (s_tree st) (s_elems st ++ [fresh]).

Section Longer.
Variables (n : nat) (st : state).
Hypothesis S0 : settled n st.
Let st' := longer st.

Lemma longer_nth i e : nth_error (s_elems st) i = Some e -> nth_error (s_elems st') i = Some e.
Proof. intros H. cbn [st' longer s_elems]. rewrite nth_error_app1; [exact H|]. apply nth_error_Some. congruence. Qed.
Lemma longer_inv i e : nth_error (s_elems st') i = Some e -> nth_error (s_elems st) i = Some e \/ i = length (s_elems st) /\ e = fresh.
Proof.
  cbn [st' longer s_elems]. intros H. destruct (Nat.lt_ge_cases i (length (s_elems st))) as [L|L]; [left; now rewrite nth_error_app1 in H|right]. rewrite nth_error_app2 in H by exact L.
  destruct (i - length (s_elems st)) as [|k] eqn:E; [|destruct k; discriminate]. injection H as <-. split; [lia|reflexivity].
Qed.
Lemma longer_lives i p : lives st' i p <-> lives st i p.
Proof.
  split.
  - intros (x & e & Hx & Ht & He & R). destruct (proj2 S0 p x _ Hx Ht) as (_ & j & ej & Ej & Hj & _). apply Nat2Z.inj in Ej. subst j. exists x, ej. split; [exact Hx|]. split; [exact Ht|]. split; [exact Hj|].
    apply longer_nth in Hj. congruence.
  - intros (x & e & Hx & Ht & He & R). exists x, e. split; [exact Hx|]. split; [exact Ht|]. split; [now apply longer_nth|exact R].
Qed.
Lemma longer_leaf i p x : on_leaf st' i p x <-> on_leaf st i p x.
Proof. unfold on_leaf. rewrite longer_lives. reflexivity. Qed.
Lemma longer_occupied p x : occupied st' p x <-> occupied st p x.
Proof. unfold occupied. split; intros [L (i & H)]; (split; [exact L|]); exists i; now apply longer_lives. Qed.
Lemma longer_covered x d s : covered_face n st' x d s <-> covered_face n st x d s.
Proof. split; intros H q y L F; apply longer_occupied; exact (H q y L F). Qed.
Lemma longer_extruded i : is_extruded st i -> is_extruded st' i.
Proof. intros (e & H & P). exists e. split; [now apply longer_nth|exact P]. Qed.
Lemma longer_deformed i p x : on_leaf st i p x -> (deformed st' i <-> deformed st i).
Proof.
  intros O. destruct (leaf_path n st i p x S0 O) as (e & He & _). split; intros (e' & H & D); exists e'; (split; [|exact D]); [|now apply longer_nth].
  apply longer_nth in He as He'. congruence.
Qed.
Lemma longer_right l : right n st l -> right n st' l.
Proof.
  destruct l as [b i j d s|b c fs d s|e d s|i o d s|fs]; cbn [right].
  - intros (Hd & p & x & q & y & O1 & O2 & L & F & B & B'). split; [exact Hd|]. exists p, x, q, y. split; [now apply longer_leaf|]. split; [now apply longer_leaf|]. split; [exact L|]. split; [exact F|]. split; [|exact B'].
    rewrite (longer_deformed i p x O1), (longer_deformed j q y O2). exact B.
  - intros (Hd & p & x & O & Len & H1 & H2 & B). split; [exact Hd|]. exists p, x. split; [now apply longer_leaf|]. split; [exact Len|]. split; [|split].
    + intros k f Hk. destruct (H1 k f Hk) as (q & y & Oq & F & R). exists q, y. split; [now apply longer_leaf|]. auto.
    + intros q y Ly F. destruct (H2 q y Ly F) as (f & Hf & Lf). exists f. split; [exact Hf|now apply longer_lives].
    + rewrite (longer_deformed c p x O), B. split; intros [A K]; (split; [exact A|]); intros f Hf; apply In_nth_error in Hf as Hf'; destruct Hf' as [k Hk]; destruct (H1 k f Hk) as (q & y & Oq & _);
        apply (longer_deformed f q y Oq); auto.
  - intros (Hd & p & x & O & B). split; [exact Hd|]. exists p, x. split; [now apply longer_leaf|exact B].
  - intros (Hd & Xo & H). split; [exact Hd|]. split; [now apply longer_extruded|]. destruct H as [(p & x & O & Nc)|X]; [left|right; now apply longer_extruded].
    exists p, x. split; [now apply longer_leaf|]. now rewrite longer_covered.
  - intros H f Hf. apply longer_extruded. auto.
Qed.
Lemma longer_settled : settled n st'.
Proof.
  split; [apply S0|]. intros p x z Hx Ht. destruct (proj2 S0 p x z Hx Ht) as (L & i & e & E & He & P). split; [exact L|]. exists i, e. split; [exact E|]. split; [now apply longer_nth|exact P].
Qed.
Lemma longer_linked : linked st -> linked st'.
Proof. intros L i e p H P. apply longer_inv in H as [H|[_ ->]]; [eauto|discriminate]. Qed.
Lemma longer_balanced : balanced n st -> balanced n st'.
Proof. intros B p x q y O1 O2. apply longer_occupied in O1, O2. exact (B p x q y O1 O2). Qed.
Lemma longer_exposed : exposed_deformed n st -> exposed_deformed n st'.
Proof. intros E i p x d s O Hd Nc. apply longer_leaf in O. rewrite longer_covered in Nc. apply (longer_deformed i p x O). eauto. Qed.
End Longer.

(** faces with connections belong to elements *)
Lemma right_bound n st l f : right n st l -> In f (uses l) -> fst (fst f) < length (s_elems st).
Proof.
  assert (X : forall i, is_extruded st i -> i < length (s_elems st)) by (intros i (e & H & _); apply nth_error_Some; congruence).
  destruct l as [b i j d s|b c fs d s|e d s|i o d s|fs]; cbn [right uses]; intros H Hf.
  - destruct H as (_ & p & x & q & y & O1 & O2 & _). destruct Hf as [<-|[<-|[]]]; cbn [fst]; eapply on_leaf_lt; eauto.
  - destruct H as (_ & p & x & O & _ & H1 & _). destruct Hf as [<-|Hf]; cbn [fst]; [eapply on_leaf_lt; eauto|]. apply in_map_iff in Hf as (g & <- & Hg). cbn [fst]. apply In_nth_error in Hg as [k Hk].
    destruct (H1 k g Hk) as (q & y & O' & _). eapply on_leaf_lt; eauto.
  - destruct H as (_ & p & x & O & _). destruct Hf as [<-|[]]. cbn [fst]. eapply on_leaf_lt; eauto.
  - destruct H as (_ & Xo & H). destruct Hf as [<-|[<-|[]]]; cbn [fst]; [|auto]. destruct H as [(p & x & O & _)|Xi]; [eapply on_leaf_lt; eauto|auto].
  - auto.
Qed.
Lemma connected_bound n js f : well_joined n js -> connected js f -> fst (fst f) < length (s_elems (j_st js)).
Proof. intros W (l & H & Hf). eapply right_bound; [apply (wj_right n js W l H)|exact Hf]. Qed.

(** ** [extrude] *)
(** a face that elements can be extruded from *)
Definition open_face (n : nat) (js : joined) (f : face) : Prop :=
  snd (fst f) < n /\ ~ connected js f /\ ((exists p x, on_leaf (j_st js) (fst (fst f)) p x) \/ is_extruded (j_st js) (fst (fst f))).

(** what does not change *)
Record grows (js js' : joined) : Prop := {
  gr_leaf : forall i p x, on_leaf (j_st js') i p x <-> on_leaf (j_st js) i p x;
  gr_conn : forall f, connected js f -> connected js' f;
  gr_tree : s_tree (j_st js') = s_tree (j_st js);
  gr_length : length (s_elems (j_st js)) <= length (s_elems (j_st js'));
  gr_links : forall l, In l (j_links js') -> In l (j_links js) \/ (exists f o, l = Ext (fst (fst f)) o (snd (fst f)) (snd f) /\ ~ connected js f) \/ (exists fs, l = Side fs);
  gr_rooted : rooted js -> rooted js'
}.
Lemma grows_refl js : grows js js. Proof. split; auto. reflexivity. Qed.
Lemma grows_trans a b c : grows a b -> grows b c -> grows a c.
Proof.
  intros [A1 A2 A3 A4 A5 A6] [B1 B2 B3 B4 B5 B6]. split; auto; try congruence; try lia.
  - intros i p x. now rewrite B1.
  - intros l H. destruct (B5 l H) as [K|[(f & o & K & N)|K]]; auto. right. left. exists f, o. split; [exact K|]. intros X. apply N. auto.
Qed.

Lemma extrude_one_sound n f js : sound n js -> open_face n js f -> sound n (extrude_one f js) /\ grows js (extrude_one f js) /\
  (forall g, connected (extrude_one f js) g <-> connected js g \/ g = f \/ g = (length (s_elems (j_st js)), snd (fst f), negb (snd f))) /\
  (exposed_deformed n (j_st js) -> exposed_deformed n (j_st (extrude_one f js))) /\
  (one_layer js -> (exists p x, on_leaf (j_st js) (fst (fst f)) p x) -> one_layer (extrude_one f js)) /\
  (forall g, open_face n js g -> g <> f -> open_face n (extrude_one f js) g).
Proof.
  intros [S0 Lk Bl Rc Wj Al Ls Nd] (Hd & Nc & Own). destruct f as [[i d] s]. cbn [fst snd] in *. set (st := j_st js) in *. set (o := length (s_elems st)) in *.
  set (js1 := mk_joined (longer st) (j_links js) (j_extr js) (j_face js)).
  assert (E : extrude_one (i, d, s) js = mk_joined (longer st) (j_links js ++ [Ext i o d s]) (j_extr js ++ [Ext i o d s]) (j_face (add_link (Ext i o d s) js1))) by reflexivity.
  assert (Con : forall g, connected (extrude_one (i, d, s) js) g <-> connected js g \/ g = (i, d, s) \/ g = (o, d, negb s)).
  { intros g. change (connected (add_link (Ext i o d s) js1) g <-> connected js g \/ g = (i, d, s) \/ g = (o, d, negb s)). rewrite add_connected. cbn [uses In].
    split; (intros [H|[H|H]]; [left; exact H|right; left; now symmetry in H|]); [destruct H as [H|[]]; right; right; now symmetry in H|right; right; left; now symmetry in H]. }
  assert (Gr : grows js (extrude_one (i, d, s) js)).
  { split.
    - intros a p x. rewrite E. cbn [j_st]. now apply (longer_leaf n st S0).
    - intros g G. apply Con. now left.
    - reflexivity.
    - rewrite E. cbn [j_st longer s_elems]. rewrite app_length. fold st. cbn. lia.
    - intros l H. rewrite E in H. cbn [j_links] in H. apply in_app_or in H as [H|[<-|[]]]; [now left|]. right. left. exists (i, d, s), o. auto.
    - intros Rt k (e & He & Pe). rewrite E in *. cbn [j_st j_links] in *. apply longer_inv in He as [He|[-> _]].
      + destruct (Rt k (ex_intro _ e (conj He Pe))) as (a & d' & s' & H). exists a, d', s'. apply in_or_app. now left.
      + exists i, d, s. apply in_or_app. right. now left. }
  assert (Lo : i < o). { destruct Own as [(p & x & O)|(e & He & _)]; [eapply on_leaf_lt; eauto|apply nth_error_Some; fold st in He; rewrite He; discriminate]. }
  assert (Xo : is_extruded (longer st) o). { exists fresh. split; [|reflexivity]. cbn [longer s_elems]. rewrite nth_error_app2 by (unfold o; lia). unfold o. now rewrite Nat.sub_diag. }
  assert (W1 : well_joined n js1).
  { destruct Wj as [Wr Wo Wf]. split; [|exact Wo|exact Wf]. intros l H. cbn [js1 j_st]. apply (longer_right n st S0). now apply Wr. }
  assert (R : right n (longer st) (Ext i o d s)).
  { cbn [right]. split; [exact Hd|]. split; [exact Xo|]. destruct Own as [(p & x & O)|X]; [left|right; now apply longer_extruded].
    exists p, x. split; [now apply (longer_leaf n st S0)|]. rewrite (longer_covered n st S0). intros Cv. apply Nc. eapply Al; eauto. }
  assert (W2 : well_joined n (add_link (Ext i o d s) js1)).
  { apply add_well; [exact W1|exact R| |].
    - cbn [uses]. constructor; [intros [H|[]]; injection H; intros; lia|]. constructor; [intros []|constructor].
    - cbn [uses]. intros g [<-|[<-|[]]] K; [exact (Nc K)|]. apply (connected_bound n js) in K; [|exact Wj]. cbn [fst] in K. fold st o in K. lia. }
  split; [|split; [exact Gr|split; [exact Con|split; [|split]]]].
  - split; rewrite E; cbn [j_st j_links j_extr].
    + now apply longer_settled.
    + now apply longer_linked.
    + now apply (longer_balanced n st S0).
    + intros a e H. apply longer_inv in H as [H|[_ ->]]; [eauto|reflexivity].
    + destruct W2 as [Wr Wo Wf]. split; [exact Wr|exact Wo|exact Wf].
    + intros a p x d' s' O Hd' Cv. rewrite <- E. apply (gr_conn _ _ Gr). cbn [j_st] in O, Cv. apply (longer_leaf n st S0) in O. apply (longer_covered n st S0) in Cv. eapply Al; eauto.
    + intros a b d' s' H. cbn [j_links j_extr] in *. apply in_app_or in H as [H|H]; apply in_or_app; [left; now apply Ls|right; exact H].
    + intros l H. cbn [j_links j_extr] in *. apply in_app_or in H as [H|[<-|[]]].
      * destruct (Nd l H) as [K1 K2]. split; [apply in_or_app; now left|exact K2].
      * split; [apply in_or_app; right; now left|eauto].
  - rewrite E. cbn [j_st]. now apply longer_exposed.
  - intros Ol Tr a b d' s' H. rewrite E in H. cbn [j_links] in H. apply in_app_or in H as [H|[H|[]]].
    + destruct (Ol _ _ _ _ H) as (p & x & O). exists p, x. now apply (gr_leaf _ _ Gr).
    + injection H as <- _ _ _. destruct Tr as (p & x & O). exists p, x. now apply (gr_leaf _ _ Gr).
  - intros g (G1 & G2 & G3) Ne. split; [exact G1|]. split.
    + rewrite Con. intros [H|[H|H]]; [contradiction|contradiction|]. subst g. cbn [fst] in G3. destruct G3 as [(p & x & O)|(e & He & _)].
      * apply on_leaf_lt in O. unfold o, st in O. lia.
      * assert (o < length (s_elems (j_st js))) by (apply nth_error_Some; congruence). unfold o, st in *. lia.
    + destruct G3 as [(p & x & O)|X]; [left; exists p, x; now apply (gr_leaf _ _ Gr)|right]. rewrite E. cbn [j_st]. now apply longer_extruded.
Qed.

Lemma extrude_all n : forall fs js, sound n js -> NoDup fs -> (forall f, In f fs -> open_face n js f) ->
  let js' := fold_left (fun js f => extrude_one f js) fs js in
  sound n js' /\ grows js js' /\ (forall f, In f fs -> connected js' f) /\ (exposed_deformed n (j_st js) -> exposed_deformed n (j_st js')) /\
  (one_layer js -> (forall f, In f fs -> exists p x, on_leaf (j_st js) (fst (fst f)) p x) -> one_layer js').
Proof.
  induction fs as [|f fs IH]; intros js Sd ND Op; cbn [fold_left].
  - split; [exact Sd|]. split; [apply grows_refl|]. split; [intros f []|]. auto.
  - inversion ND as [|? ? Nf ND']; subst. destruct (extrude_one_sound n f js Sd (Op f (or_introl eq_refl))) as (S1 & G1 & C1 & E1 & L1 & O1).
    destruct (IH (extrude_one f js) S1 ND') as (S2 & G2 & C2 & E2 & L2).
    { intros g Hg. apply O1; [apply Op; now right|]. intros ->. contradiction. }
    split; [exact S2|]. split; [eapply grows_trans; eauto|]. split; [|split; [auto|]].
    + intros g [<-|Hg]; [|now apply C2]. apply (gr_conn _ _ G2). apply C1. auto.
    + intros Ol Tr. apply L2; [apply L1; [exact Ol|apply Tr; now left]|]. intros g Hg. destruct (Tr g (or_intror Hg)) as (p & x & O). exists p, x. now apply (gr_leaf _ _ G1).
Qed.

Lemma add_side n fs js : sound n js -> NoDup fs -> (forall f, In f fs -> is_extruded (j_st js) (fst (fst f)) /\ ~ connected js f) ->
  sound n (add_link (Side fs) js) /\ grows js (add_link (Side fs) js) /\ (one_layer js -> one_layer (add_link (Side fs) js)).
Proof.
  intros [S0 Lk Bl Rc Wj Al Ls Nd] ND H.
  assert (G : grows js (add_link (Side fs) js)).
  { split; cbn [add_link j_st j_links]; auto; [reflexivity|intros f K; apply add_connected; now left|intros l K; apply in_app_or in K as [K|[<-|[]]]; [now left|]; right; right; eauto|]. intros Rt o Xo. destruct (Rt o Xo) as (i & d & s & K). exists i, d, s. apply in_or_app. now left. }
  split; [|split; [exact G|]].
  - split; auto.
    + apply add_well; auto. * intros f Hf. now apply H. * intros f Hf. now apply H.
    + intros i p x d s O Hd Cv. apply (gr_conn _ _ G). eapply Al; eauto.
    + intros i o d s K. cbn [add_link j_links j_extr] in *. apply in_app_or in K as [K|[K|[]]]; [auto|discriminate].
    + intros l K. cbn [add_link j_links j_extr] in *. destruct (Nd l K) as [K1 K2]. split; [apply in_or_app; now left|exact K2].
  - intros Ol i o d s K. cbn [add_link j_links j_st] in *. apply in_app_or in K as [K|[K|[]]]; [eauto|discriminate].
Qed.
Lemma add_sides n : forall fss js, sound n js -> fits js fss -> let js' := fold_left (fun js fs => add_link (Side fs) js) fss js in
  sound n js' /\ grows js js' /\ (one_layer js -> one_layer js') /\ j_st js' = j_st js.
Proof.
  induction fss as [|fs fss IH]; intros js Sd [ND H]; cbn [fold_left].
  - split; [exact Sd|]. split; [apply grows_refl|]. auto.
  - cbn [concat] in ND, H. apply NoDup_app_inv in ND as (N1 & N2 & N3). destruct (add_side n fs js Sd N1) as (S1 & G1 & L1).
    { intros f Hf. apply H. apply in_or_app. now left. }
    destruct (IH (add_link (Side fs) js) S1) as (S2 & G2 & L2 & E2).
    { split; [exact N2|]. intros f Hf. destruct (H f) as [H1 H2]; [apply in_or_app; now right|]. split; [exact H1|]. rewrite add_connected. intros [K|K]; [contradiction|]. exact (N3 f K Hf). }
    split; [exact S2|]. split; [eapply grows_trans; eauto|]. split; [auto|]. rewrite E2. reflexivity.
Qed.
