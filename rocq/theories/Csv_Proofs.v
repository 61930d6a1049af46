(** Proofs about [read_csv]. *)
From Coq Require Import List Arith Ascii Bool Lia.
Import ListNotations.
From Verif Require Import Csv_Model Csv_Spec.

Lemma take_line_app l r : ~ In LF l -> take_line (l ++ LF :: r) = (l, r, true).
Proof.
  induction l as [|c l IH]; intros H; cbn [app take_line]; [rewrite Ascii.eqb_refl; reflexivity|]. destruct (Ascii.eqb_spec c LF) as [->|NE]; [exfalso; apply H; now left|]. rewrite IH by (intros K; apply H; now right). reflexivity.
Qed.
Lemma take_line_end l : ~ In LF l -> take_line l = (l, [], false).
Proof. induction l as [|c l IH]; intros H; cbn [take_line]; [reflexivity|]. destruct (Ascii.eqb_spec c LF) as [->|NE]; [exfalso; apply H; now left|]. rewrite IH by (intros K; apply H; now right). reflexivity. Qed.
Lemma find_comma_app e r : ~ In comma e -> find_comma (e ++ comma :: r) = length e.
Proof. induction e as [|c e IH]; intros H; cbn [app find_comma length]; [now rewrite Ascii.eqb_refl|]. destruct (Ascii.eqb_spec c comma) as [->|NE]; [exfalso; apply H; now left|]. rewrite IH by (intros K; apply H; now right). reflexivity. Qed.
Lemma find_comma_end e : ~ In comma e -> find_comma e = length e.
Proof. induction e as [|c e IH]; intros H; cbn [find_comma length]; [reflexivity|]. destruct (Ascii.eqb_spec c comma) as [->|NE]; [exfalso; apply H; now left|]. rewrite IH by (intros K; apply H; now right). reflexivity. Qed.
Lemma count_plain e : ~ In comma e -> count_commas e = 0.
Proof. unfold count_commas. induction e as [|c e IH]; intros H; cbn [filter]; [reflexivity|]. destruct (Ascii.eqb_spec c comma) as [->|NE]; [exfalso; apply H; now left|]. apply IH. intros K. apply H. now right. Qed.
Lemma count_app a b : count_commas (a ++ b) = count_commas a + count_commas b.
Proof. unfold count_commas. now rewrite filter_app, app_length. Qed.
Lemma commas_cons e e' row : commas (e :: e' :: row) = e ++ comma :: commas (e' :: row).
Proof. reflexivity. Qed.
Lemma count_row row : row <> [] -> Forall plain row -> count_commas (commas row) + 1 = length row.
Proof.
  induction row as [|e [|e' row] IH]; intros NE F; [contradiction| |].
  - cbn [commas length]. inversion F as [|? ? [P _] _]; subst. rewrite count_plain by exact P. reflexivity.
  - rewrite commas_cons, count_app. inversion F as [|? ? [P _] F']; subst. rewrite count_plain by exact P. specialize (IH ltac:(discriminate) F'). cbn [length] in *. unfold count_commas in *. cbn [filter]. rewrite Ascii.eqb_refl. cbn [length]. lia.
Qed.
Lemma row_no_break row : Forall plain row -> ~ In LF (commas row).
Proof.
  induction row as [|e [|e' row] IH]; intros F; [cbn; tauto| |].
  - inversion F as [|? ? [_ P] _]; subst. exact P.
  - rewrite commas_cons. inversion F as [|? ? [_ P] F']; subst. intros K. apply in_app_or in K. destruct K as [K|[K|K]]; [now apply P|discriminate|now apply IH].
Qed.

Section proofs.
  Context {V : Type} (stod : list ascii -> option V).
  Lemma read_columns_row row : forall values pre data, Forall plain row -> Forall2 (fun e x => stod e = Some x) row values -> row <> [] ->
    read_columns stod (length row) (pre ++ commas row) (length pre) data = inr (data ++ values).
  Proof.
    induction row as [|e row IH]; intros values pre data F N NE; [contradiction|]. clear NE. inversion N as [|? x ? values' E N']; subst. inversion F as [|? ? [P _] F']; subst. cbn [length read_columns].
    replace (length (pre ++ commas (e :: row)) <? length pre) with false by (symmetry; apply Nat.ltb_ge; rewrite app_length; lia).
    rewrite skipn_app, skipn_all, Nat.sub_diag. cbn [skipn app]. destruct row as [|e' row].
    - inversion N'; subst. cbn [commas]. rewrite find_comma_end by exact P. replace (length pre + length e - length pre) with (length e) by lia. rewrite firstn_all, E. reflexivity.
    - rewrite commas_cons, find_comma_app by exact P. replace (length pre + length e - length pre) with (length e) by lia. rewrite firstn_app, firstn_all, Nat.sub_diag. cbn [firstn]. rewrite app_nil_r, E.
      replace (pre ++ e ++ comma :: commas (e' :: row)) with ((pre ++ e ++ [comma]) ++ commas (e' :: row)) by (rewrite <- !app_assoc; reflexivity).
      replace (length pre + length e + 1) with (length (pre ++ e ++ [comma])) by (rewrite !app_length; cbn [length]; lia).
      rewrite (IH values' _ (data ++ [x]) F' N' ltac:(discriminate)). rewrite <- app_assoc. reflexivity.
  Qed.
  Lemma row_nonempty row values : row <> [] -> Forall2 (fun e x => stod e = Some x) row values -> stod [] = None -> commas row <> [].
  Proof.
    intros NE N S0 Z. destruct row as [|e [|e' row]]; [contradiction| |].
    - cbn [commas] in Z. subst. inversion N as [|? x ? ? E _]; subst. congruence.
    - rewrite commas_cons in Z. destruct e; discriminate.
  Qed.
  Lemma read_rows_nil fuel cols s rows (data : list V) : read_rows stod fuel cols s [] rows data = Some (Table rows cols data).
  Proof. destruct fuel; reflexivity. Qed.
  Lemma read_rows_cons fuel cols s line rows (data : list V) : line <> [] -> read_rows stod (S fuel) cols s line rows data =
    match read_columns stod cols line 0 data with inl r => Some r | inr data => let '(s, line) := getline s line in read_rows stod fuel cols s line (S rows) data end.
  Proof. intros NE. destruct line; [contradiction|reflexivity]. Qed.
  (** reading the lines of a table; [tail] is what follows *)
  Lemma read_rows_table cols table : forall values rows data fuel tail, (0 < cols) -> stod [] = None -> rectangular cols table -> numbers stod table values -> length table <= fuel ->
    (let '(s, line) := getline (Stream (text table ++ tail) true) [] in read_rows stod fuel cols s line rows data) =
    (let '(s, line) := getline (Stream tail true) [] in read_rows stod (fuel - length table) cols s line (rows + length table) (data ++ concat values)).
  Proof.
    induction table as [|row table IH]; intros values rows data fuel tail C S0 RT N FU.
    - inversion N; subst. cbn [text flat_map app length concat]. rewrite Nat.sub_0_r, Nat.add_0_r, app_nil_r. reflexivity.
    - inversion N as [|? vs ? values' NR N']; subst. inversion RT as [|? ? [L F] RT']; subst. assert (NE : row <> []) by (intros ->; cbn in C; lia).
      destruct fuel as [|fuel]; [cbn in FU; lia|]. cbn [text flat_map]. unfold getline at 1. cbn [good unread]. rewrite <- !app_assoc. cbn [app]. rewrite take_line_app by now apply row_no_break. cbn iota beta.
      rewrite read_rows_cons by (now apply (row_nonempty row vs)). pose proof (read_columns_row row vs [] data F NR NE) as RR. cbn [app length] in RR. rewrite RR.
      replace (getline {| unread := flat_map (fun row0 => commas row0 ++ ["010"%char]) table ++ tail; good := true |} (commas row)) with (getline (Stream (text table ++ tail) true) []) by reflexivity.
      rewrite (IH values' (S rows) (data ++ vs) fuel tail C S0 RT' N') by (cbn in FU; lia). cbn [length Nat.sub concat]. rewrite app_assoc. replace (S rows + length table) with (rows + S (length table)) by lia. reflexivity.
  Qed.
  Lemma first_line table tail row : Forall plain row -> getline (Stream (text (row :: table) ++ tail) true) [] = (Stream (text table ++ tail) true, commas row).
  Proof. intros F. unfold getline. cbn [good unread text flat_map]. rewrite <- !app_assoc. cbn [app]. rewrite take_line_app by now apply row_no_break. reflexivity. Qed.
  Lemma read_csv_table cols row table values fuel tail : 0 < cols -> stod [] = None -> rectangular cols (row :: table) -> numbers stod (row :: table) values -> length (row :: table) <= fuel ->
    read_csv stod fuel (text (row :: table) ++ tail) = (let '(s, line) := getline (Stream tail true) [] in read_rows stod (fuel - length (row :: table)) cols s line (length (row :: table)) (concat values)).
  Proof.
    intros C S0 RT N FU. pose proof (read_rows_table cols (row :: table) values 0 [] fuel tail C S0 RT N FU) as E. cbn [Nat.add app] in E. rewrite <- E. unfold read_csv.
    inversion RT as [|? ? [L F] RT']; subst. rewrite first_line by exact F. rewrite count_row by (assumption || (intros ->; cbn in C; lia)). reflexivity.
  Qed.
  (** a stream that met the end keeps returning the same line *)
  Lemma read_rows_stuck fuel : forall cols rest line rows data, line <> [] -> (forall data, exists data', read_columns stod cols line 0 data = inr data') ->
    read_rows stod fuel cols (Stream rest false) line rows data = None.
  Proof.
    induction fuel as [|fuel IH]; intros cols rest line rows data NE RC; [destruct line; [contradiction|reflexivity]|]. rewrite read_rows_cons by exact NE. destruct (RC data) as [data' ->]. cbn [getline good]. now apply IH.
  Qed.
  Lemma read_rows_more fuel : forall fuel' cols s line rows (data : list V) r, fuel <= fuel' -> read_rows stod fuel cols s line rows data = Some r -> read_rows stod fuel' cols s line rows data = Some r.
  Proof.
    induction fuel as [|fuel IH]; intros fuel' cols s line rows data r LE E; destruct line as [|c line]; try (destruct fuel'; exact E); [discriminate|]. destruct fuel' as [|fuel']; [lia|].
    rewrite read_rows_cons in * by discriminate. destruct (read_columns stod cols (c :: line) 0 data); [exact E|]. destruct (getline s (c :: line)). apply (IH fuel'); [lia|exact E].
  Qed.
End proofs.

(** ** Lines with enough columns are read within bounds *)
Lemma find_comma_split t : (count_commas t = 0 /\ find_comma t = length t) \/ (find_comma t < length t /\ count_commas (skipn (S (find_comma t)) t) = count_commas t - 1 /\ 1 <= count_commas t).
Proof.
  unfold count_commas. induction t as [|c t IH]; [left; split; reflexivity|]. cbn [find_comma filter]. destruct (Ascii.eqb_spec c comma) as [->|NE].
  - right. cbn [length skipn]. lia.
  - destruct IH as [[A B]|(A & B & C)]; [left; cbn [length]; lia|right]. cbn [length]. change (skipn (S (S (find_comma t))) (c :: t)) with (skipn (S (find_comma t)) t). lia.
Qed.
Lemma skipn_add {A} a b (l : list A) : skipn a (skipn b l) = skipn (b + a) l.
Proof. revert l. induction b as [|b IH]; intros l; [reflexivity|]. destruct l; [now rewrite !skipn_nil|]. cbn [skipn Nat.add]. apply IH. Qed.
Lemma read_columns_safe {V} (stod : list ascii -> option V) cols : forall line begin data, begin <= length line -> cols <= count_commas (skipn begin line) + 1 -> read_columns stod cols line begin data <> inl OutOfBounds.
Proof.
  induction cols as [|cols IH]; intros line begin data B C; [discriminate|]. cbn [read_columns]. replace (length line <? begin) with false by (symmetry; apply Nat.ltb_ge; exact B).
  destruct (stod _); [|discriminate]. destruct cols as [|cols]; [discriminate|]. destruct (find_comma_split (skipn begin line)) as [[A _]|(L & CC & P)]; [lia|]. rewrite skipn_length in L.
  apply IH; [lia|]. replace (begin + find_comma (skipn begin line) + 1) with (begin + S (find_comma (skipn begin line))) by lia. rewrite <- skipn_add, CC. lia.
Qed.
Lemma read_rows_safe {V} (stod : list ascii -> option V) lines : forall fuel cols rows data tail, Forall (fun l => ~ In LF l /\ cols <= count_commas l + 1) lines -> (tail = [] \/ exists rest, tail = LF :: rest) -> length lines <= fuel ->
  exists r, (let '(s, line) := getline (Stream (flat_map (fun l => l ++ [LF]) lines ++ tail) true) [] in read_rows stod fuel cols s line rows data) = Some r /\ r <> OutOfBounds.
Proof.
  induction lines as [|l lines IH]; intros fuel cols rows data tail F T FU.
  - cbn [flat_map app]. assert (E : exists s, getline (Stream tail true) [] = (s, [])). { destruct T as [->|[rest ->]]; unfold getline; cbn [good unread take_line]; [eauto|]. rewrite Ascii.eqb_refl. eauto. }
    destruct E as [s ->]. rewrite read_rows_nil. eexists. split; [reflexivity|discriminate].
  - inversion F as [|? ? [NL C] F']; subst. cbn [flat_map]. unfold getline at 1. cbn [good unread]. rewrite <- !app_assoc. cbn [app]. rewrite take_line_app by exact NL. cbn iota beta.
    destruct l as [|c l]; [rewrite read_rows_nil; eexists; split; [reflexivity|discriminate]|]. destruct fuel as [|fuel]; [cbn in FU; lia|]. rewrite read_rows_cons by discriminate.
    pose proof (read_columns_safe stod cols (c :: l) 0 data ltac:(lia) ltac:(exact C)) as S. destruct (read_columns stod cols (c :: l) 0 data) as [r|data'].
    + exists r. split; [reflexivity|]. intros ->. now apply S.
    + apply (IH fuel cols (Datatypes.S rows) data' tail F' T). cbn in FU. lia.
Qed.
