(** [extrude], [connect_rest] and [disconnect_boundary] keep the mesh sound. *)
From Coq Require Import ZArith QArith List Bool Arith Lia Permutation.
From Verif Require Import Outcome Loop ListUtil Tree_Model Tree_Spec Tree_Proofs Update_Model Update_Spec Update_Proofs1 Update_Proofs3 Update_Proofs8 Update_Proofs11 Update_Thm
  Trim_Model Trim_Spec Trim_Proofs7 Join_Model Join_Spec Join_Proofs1 Join_Proofs2 Join_Proofs3 Join_Proofs5 Join_Proofs7 Extr_Model Extr_Spec Extr_Proofs1.
Import ListNotations.
Local Open Scope nat_scope.

Lemma container_In st d i : In i (container st d) <-> exists e, nth_error (s_elems st) i = Some e /\ e_def e = d.
Proof.
  unfold container. rewrite filter_In. split.
  - intros [_ H]. destruct (nth_error (s_elems st) i) as [e|] eqn:E; [|discriminate]. exists e. split; [reflexivity|]. now apply eqb_prop.
  - intros (e & H & D). split; [apply in_seq; split; [lia|]; cbn; apply nth_error_Some; congruence|]. rewrite H, D. apply eqb_reflx.
Qed.
Lemma container_NoDup st d : NoDup (container st d).
Proof. apply NoDup_filter, seq_NoDup. Qed.

Section Sound.
Variables (n : nat) (js : joined).
Hypothesis Sd : sound n js.
Let st := j_st js.

Lemma sound_tree i : (exists p x, on_leaf st i p x) <-> exists p, tree_of st i = Some p.
Proof.
  pose proof (so_settled n js Sd) as S0. assert (C : Cons n st) by now apply consistent_Cons, settled_consistent. split.
  - intros (p & x & O). exists p. apply (tree_of_at n st i p C). destruct O as [_ O]. now apply (lives_at n st i p C) in O.
  - intros (p & H). apply (tree_of_at n st i p C) in H. destruct (elem_at_cons n st p i C H) as (e & _ & _ & He & _). unfold elem_at in H.
    destruct (subtree (s_tree st) p) as [x|] eqn:Hx; [|discriminate]. destruct (t_elem x) as [z|] eqn:Ht; [|discriminate]. injection H as H.
    destruct (proj2 S0 p x z Hx Ht) as (Lf & j & ej & -> & Hj & _). rewrite Nat2Z.id in H. subst j. exists p, x. split; [split; auto|]. exists x, ej. split; [exact Hx|]. split; [exact Ht|]. split; [exact Hj|].
    pose proof (so_records n js Sd i ej Hj) as R0. rewrite R0. discriminate.
Qed.
Lemma sound_kind i : i < length (s_elems st) -> (exists p x, on_leaf st i p x) \/ (is_extruded st i /\ tree_of st i = None).
Proof.
  intros H. destruct (tree_of st i) as [p|] eqn:Et; [left; apply sound_tree; eauto|right]. split; [|reflexivity]. destruct (nth_error (s_elems st) i) as [e|] eqn:E; [|apply nth_error_None in E; lia].
  exists e. split; [exact E|]. destruct (e_path e) as [p|] eqn:Ep; [exfalso|reflexivity]. destruct (so_linked n js Sd i e p E Ep) as (x & Hx & Ht). fold st in Hx.
  assert (exists p, tree_of st i = Some p) as (p' & K); [|congruence]. pose proof (so_settled n js Sd) as S0. assert (C : Cons n st) by now apply consistent_Cons, settled_consistent.
  exists p. apply (tree_of_at n st i p C). unfold elem_at. now rewrite Hx, Ht, Nat2Z.id.
Qed.
Lemma bare_faces_In i f : In f (bare_faces n js i) <-> fst (fst f) = i /\ snd (fst f) < n /\ ~ connected js f.
Proof.
  unfold bare_faces. rewrite filter_In, in_map_iff, negb_true_iff. split.
  - intros (([d s] & <- & H) & R). cbn [fst snd]. apply faces_of_In in H. split; [reflexivity|]. split; [exact H|]. rewrite <- recorded_spec. cbn [fst snd] in R. congruence.
  - destruct f as [[a d] s]. cbn [fst snd]. intros (<- & H & R). split; [exists (d, s); split; [reflexivity|now apply faces_of_In]|]. rewrite <- recorded_spec in R. now destruct (recorded js (a, d, s)).
Qed.
Lemma bare_faces_NoDup i : NoDup (bare_faces n js i).
Proof. apply NoDup_filter. apply FinFun.Injective_map_NoDup; [|apply faces_of_NoDup]. intros [d s] [d' s'] H. cbn in H. congruence. Qed.

Lemma empty_faces_In force f : In f (empty_faces n force js) <->
  snd (fst f) < n /\ ~ connected js f /\ deformed st (fst (fst f)) /\ ((exists p x, on_leaf st (fst (fst f)) p x) \/ force = true).
Proof.
  unfold empty_faces. rewrite in_flat_map. fold st. split.
  - intros (i & Hi & H). apply container_In in Hi as Di.
    assert (K : In f (bare_faces n js i) /\ ((exists p, tree_of st i = Some p) \/ force = true)). { destruct (tree_of st i); [split; [exact H|left; eauto]|]. destruct force; [split; [exact H|now right]|destruct H]. }
    destruct K as [K Q]. apply bare_faces_In in K as (<- & K1 & K2). split; [exact K1|]. split; [exact K2|]. split; [exact Di|]. destruct Q as [Q|Q]; [left; now apply sound_tree|now right].
  - intros (H1 & H2 & H3 & H4). exists (fst (fst f)). split; [now apply container_In|]. assert (K : In f (bare_faces n js (fst (fst f)))) by now apply bare_faces_In.
    destruct (tree_of st (fst (fst f))) as [p|] eqn:E; [exact K|]. destruct H4 as [H4| ->]; [|exact K]. apply sound_tree in H4 as (p & H4). congruence.
Qed.
Lemma empty_faces_NoDup force : NoDup (empty_faces n force js).
Proof.
  unfold empty_faces. fold st. generalize (container_NoDup st true). generalize (container st true). intros l ND. induction ND as [|i l Ni _ IH]; cbn [flat_map]; [constructor|].
  assert (K : forall j f, In f (match tree_of st j with Some _ => bare_faces n js j | None => if force then bare_faces n js j else [] end) -> fst (fst f) = j).
  { intros j f H. assert (In f (bare_faces n js j)) by (destruct (tree_of st j); [exact H|]; destruct force; [exact H|destruct H]). now apply bare_faces_In in H0. }
  apply NoDup_app'; [|exact IH|].
  - destruct (tree_of st i); [apply bare_faces_NoDup|]. destruct force; [apply bare_faces_NoDup|constructor].
  - intros f H1 H2. apply K in H1. apply in_flat_map in H2 as (j & Hj & H2). apply K in H2. congruence.
Qed.
Lemma empty_faces_open force f : In f (empty_faces n force js) -> open_face n js f.
Proof.
  intros H. apply empty_faces_In in H as (H1 & H2 & (e & He & _) & _). split; [exact H1|]. split; [exact H2|].
  destruct (sound_kind (fst (fst f))) as [K|[K _]]; [apply nth_error_Some; congruence|now left|now right].
Qed.
End Sound.

Lemma grows_covered n js js' x d s : sound n js -> sound n js' -> grows js js' -> (covered_face n (j_st js') x d s <-> covered_face n (j_st js) x d s).
Proof.
  intros S S' G. assert (Oc : forall q y, occupied (j_st js') q y <-> occupied (j_st js) q y).
  { intros q y. split; intros [L (i & H)].
    - destruct (proj1 (gr_leaf _ _ G i q y) (conj L H)) as [L' H']. split; eauto.
    - destruct (proj2 (gr_leaf _ _ G i q y) (conj L H)) as [L' H']. split; eauto. }
  split; intros H q y L F; apply Oc; apply H; auto; [rewrite (gr_tree _ _ G)|rewrite <- (gr_tree _ _ G)]; exact L.
Qed.

(** ** [extrude] *)
Lemma extrude_sound n force sides js : sound n js -> fitting sides ->
  let js' := extrude n force sides js in
  sound n js' /\ grows js js' /\ (exposed_deformed n (j_st js) -> tree_closed n js' /\ exposed_deformed n (j_st js')) /\ (one_layer js -> force = false -> one_layer js').
Proof.
  intros Sd Ft. unfold extrude. set (fs := empty_faces n force js). set (js1 := fold_left (fun js f => extrude_one f js) fs js).
  destruct (extrude_all n fs js Sd (empty_faces_NoDup n js force) (empty_faces_open n js Sd force)) as (S1 & G1 & C1 & E1 & L1). fold js1 in S1, G1, C1, E1, L1.
  destruct (add_sides n (sides js1) js1 S1 (Ft js1)) as (S2 & G2 & L2 & Es2). cbv zeta. fold js1. split; [exact S2|]. split; [eapply grows_trans; eauto|]. split.
  - intros Ex. split; [|rewrite Es2; auto]. intros i p x d s O Hd. apply (gr_conn _ _ G2). apply (gr_leaf _ _ G2) in O. apply (gr_leaf _ _ G1) in O.
    destruct (connected_dec js (i, d, s)) as [K|K]; [now apply (gr_conn _ _ G1)|]. apply C1. apply (empty_faces_In n js Sd). cbn [fst snd]. split; [exact Hd|]. split; [exact K|]. split; [|left; eauto].
    apply (Ex i p x d s O Hd). intros Cv. apply K. eapply (so_all n js Sd); eauto.
  - intros Ol F. apply L2, L1; [exact Ol|]. intros f H. apply (empty_faces_In n js Sd) in H as (_ & _ & _ & [H|H]); [exact H|congruence].
Qed.

(** ** [connect_rest] *)
Definition rest_done (n : nat) (js : joined) (i : nat) : Prop := forall d s, d < n -> connected js (i, d, s).

Lemma connect_empty_ok n i js : sound n js -> tree_closed n js -> i < length (s_elems (j_st js)) ->
  let js' := connect_empty n i js in sound n js' /\ grows js js' /\ (one_layer js -> one_layer js') /\ j_st js' = j_st js /\ rest_done n js' i.
Proof.
  intros Sd Tc Hi. unfold connect_empty. cbv zeta. set (fs := bare_faces n js i).
  destruct (sound_kind n js Sd i Hi) as [(p & x & O)|[Xi Ti]].
  - assert (fs = []) as ->.
    { destruct fs as [|f fs'] eqn:E; [reflexivity|exfalso]. assert (H : In f fs) by (rewrite E; now left). apply bare_faces_In in H as (H1 & H2 & H3). apply H3. destruct f as [[a d] s]. cbn [fst snd] in *. subst a. eapply Tc; eauto. }
    cbn [fold_left]. split; [exact Sd|]. split; [apply grows_refl|]. split; [auto|]. split; [reflexivity|]. intros d s Hd. eapply Tc; eauto.
  - assert (K : forall fs j, sound n j -> j_st j = j_st js -> NoDup fs -> (forall f, In f fs -> fst (fst f) = i /\ ~ connected j f) ->
      let j' := fold_left (fun js f => add_link (match tree_of (j_st js) i with Some _ => Bnd i (snd (fst f)) (snd f) | None => Side [f] end) js) fs j in
      sound n j' /\ grows j j' /\ (one_layer j -> one_layer j') /\ j_st j' = j_st j /\ forall f, In f fs -> connected j' f).
    { clear fs. induction fs as [|f fs IH]; intros j Sj Ej ND H; cbn [fold_left].
      - split; [exact Sj|]. split; [apply grows_refl|]. split; [auto|]. split; [reflexivity|]. intros f [].
      - inversion ND as [|? ? Nf ND']; subst. rewrite Ej, Ti. destruct (add_side n [f] j Sj) as (S1 & G1 & L1).
        + constructor; [intros []|constructor].
        + intros g [<-|[]]. destruct (H f (or_introl eq_refl)) as [H1 H2]. split; [|exact H2]. now rewrite H1, Ej.
        + destruct (IH (add_link (Side [f]) j) S1 Ej ND') as (S2 & G2 & L2 & E2 & C2).
          { intros g Hg. destruct (H g (or_intror Hg)) as [H1 H2]. split; [exact H1|]. rewrite add_connected. intros [Q|[Q|[]]]; [contradiction|]. subst g. contradiction. }
          split; [exact S2|]. split; [eapply grows_trans; eauto|]. split; [auto|]. split; [rewrite E2; cbn [add_link j_st]; congruence|]. intros g [<-|Hg]; [|auto]. apply (gr_conn _ _ G2). apply add_connected. right. now left. }
    destruct (K fs js Sd eq_refl (bare_faces_NoDup n js i)) as (S1 & G1 & L1 & E1 & C1).
    { intros f H. apply bare_faces_In in H as (H1 & H2 & H3). auto. }
    split; [exact S1|]. split; [exact G1|]. split; [exact L1|]. split; [exact E1|]. intros d s Hd. destruct (connected_dec js (i, d, s)) as [Q|Q]; [now apply (gr_conn _ _ G1)|].
    apply C1. apply bare_faces_In. auto.
Qed.

Lemma connect_rest_ok n js : sound n js -> tree_closed n js ->
  let js' := connect_rest n js in sound n js' /\ grows js js' /\ (one_layer js -> one_layer js') /\ j_st js' = j_st js /\ no_gap n js'.
Proof.
  intros Sd Tc. unfold connect_rest. cbv zeta. set (l := container (j_st js) false ++ container (j_st js) true).
  assert (Hl : forall i, In i l <-> i < length (s_elems (j_st js))).
  { intros i. unfold l. rewrite in_app_iff, !container_In. split.
    - intros [(e & H & _)|(e & H & _)]; apply nth_error_Some; congruence.
    - intros H. destruct (nth_error (s_elems (j_st js)) i) as [e|] eqn:E; [|apply nth_error_None in E; lia]. destruct (e_def e) eqn:D; eauto. }
  assert (K : forall l j, sound n j -> tree_closed n j -> j_st j = j_st js -> (forall i, In i l -> i < length (s_elems (j_st js))) ->
    let j' := fold_left (fun js i => connect_empty n i js) l j in sound n j' /\ grows j j' /\ (one_layer j -> one_layer j') /\ j_st j' = j_st j /\ forall i, In i l -> rest_done n j' i).
  { clear. induction l as [|i l IH]; intros j Sj Tj Ej H; cbn [fold_left].
    - split; [exact Sj|]. split; [apply grows_refl|]. split; [auto|]. split; [reflexivity|]. intros i [].
    - destruct (connect_empty_ok n i j Sj Tj) as (S1 & G1 & L1 & E1 & D1); [rewrite Ej; apply H; now left|].
      destruct (IH (connect_empty n i j) S1) as (S2 & G2 & L2 & E2 & D2).
      + intros a p x d s O Hd. apply (gr_conn _ _ G1). rewrite E1 in O. eapply Tj; eauto.
      + congruence.
      + intros a Ha. apply H. now right.
      + split; [exact S2|]. split; [eapply grows_trans; eauto|]. split; [auto|]. split; [congruence|]. intros a [<-|Ha]; [|auto]. intros d s Hd. apply (gr_conn _ _ G2). now apply D1. }
  destruct (K l js Sd Tc eq_refl (fun i => proj1 (Hl i))) as (S1 & G1 & L1 & E1 & D1). split; [exact S1|]. split; [exact G1|]. split; [exact L1|]. split; [exact E1|].
  intros i d s Hi Hd. rewrite E1 in Hi. apply D1; [now apply Hl|exact Hd].
Qed.

(** ** [disconnect_boundary] *)
Lemma flat_filter_NoDup (P : link -> bool) ls : NoDup (flat_map uses ls) -> NoDup (flat_map uses (filter P ls)).
Proof.
  induction ls as [|l ls IH]; cbn [flat_map filter]; [auto|]. intros H. apply NoDup_app_inv in H as (H1 & H2 & H3). destruct (P l); [|auto]. cbn [flat_map]. apply NoDup_app'; auto.
  intros a Ha K. apply (H3 a Ha). apply in_flat_map in K as (c & Hc & K). apply filter_In in Hc as [Hc _]. apply in_flat_map. eauto.
Qed.
Lemma disconnect_sound n surf_bc js : sound n js -> let js' := disconnect_surface surf_bc js in
  sound n js' /\ j_st js' = j_st js /\ (one_layer js -> one_layer js') /\ (forall l, In l (j_links js') -> In l (j_links js)) /\
  (tree_closed n js -> tree_closed n js').
Proof.
  intros [S0 Lk Bl Rc Wj Al Ls Nd]. cbv zeta. set (gone := fun l => match l with Side [f] => surf_bc f | _ => false end).
  set (js' := disconnect_surface surf_bc js).
  assert (Ll : j_links js' = filter (fun l => negb (gone l)) (j_links js)) by reflexivity.
  assert (Es : j_st js' = j_st js) by reflexivity.
  assert (Sub : forall l, In l (j_links js') -> In l (j_links js)). { intros l H. rewrite Ll in H. now apply filter_In in H. }
  assert (Tr : forall i p x d s, on_leaf (j_st js) i p x -> connected js (i, d, s) -> connected js' (i, d, s)).
  { intros i p x d s O (l & H & Hf). exists l. split; [|exact Hf]. rewrite Ll. apply filter_In. split; [exact H|]. destruct l as [| | | |fs]; try reflexivity.
    exfalso. pose proof (wj_right n js Wj _ H) as R. cbn [right] in R. eapply (leaf_not_extruded n); [exact S0|exact O|]. exact (R _ Hf). }
  split; [|split; [exact Es|split; [|split; [exact Sub|]]]].
  - split; auto.
    + split.
      * intros l H. rewrite Es. apply (wj_right n js Wj). auto.
      * rewrite Ll. apply flat_filter_NoDup, Wj.
      * intros f. change (j_face js' f) with (j_face js f && negb (existsb (fun l => gone l && existsb (face_eqb f) (uses l)) (j_links js))). rewrite andb_true_iff, negb_true_iff, (wj_flags n js Wj f). split.
        -- intros [(l & H & Hf) E]. exists l. split; [|exact Hf]. rewrite Ll. apply filter_In. split; [exact H|]. apply negb_true_iff. destruct (gone l) eqn:G; [|reflexivity]. exfalso.
           assert (existsb (fun l => gone l && existsb (face_eqb f) (uses l)) (j_links js) = true); [|congruence]. apply existsb_exists. exists l. split; [exact H|]. rewrite G. cbn [andb]. now apply existsb_face.
        -- intros (l & H & Hf). rewrite Ll in H. apply filter_In in H as [H Hg]. split; [exists l; auto|]. destruct (existsb _ (j_links js)) eqn:E; [|reflexivity]. exfalso.
           apply existsb_exists in E as (l' & H' & E). apply andb_true_iff in E as [E1 E2]. apply existsb_face in E2. rewrite (same_link (j_links js) l l' f (wj_once n js Wj) H H' Hf E2) in Hg. now rewrite E1 in Hg.
    + intros i p x d s O Hd Cv. eapply Tr; [exact O|]. eapply Al; eauto.
    + intros i o d s H. apply Sub in H. now apply Ls.
    + intros l H. destruct (Nd l H) as [K (i & o & d & s & ->)]. split; [|eauto]. rewrite Ll. apply filter_In. split; [exact K|reflexivity].
  - intros Ol i o d s H. apply Sub in H. eapply Ol; eauto.
  - intros Tc i p x d s O Hd. eapply Tr; [exact O|]. eapply Tc; eauto.
Qed.
