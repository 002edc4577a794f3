(** * C24: CSV loading *)

From Coq Require Import Ascii String List Bool Arith ZArith Lia.
From Verif Require Import Base Data_Model Data_Text Data_Proofs.
Import ListNotations.
Local Open Scope nat_scope.
Local Open Scope list_scope.

Section D.
Context {D : Type} (N : dnum D).
Notation column := (@column D).
Notation dataset := (@dataset D).

(** ** Specification *)
(** every column has one entry per row, in the data and in the missing mask *)
Definition rectangular (ds : dataset) : Prop :=
  Forall (fun col => col_size col = ds_rows ds /\ length (c_mask col) = ds_rows ds /\ (c_type col = DATETIME -> length (c_time col) = ds_rows ds)) (ds_cols ds).

(** what the column shows in row [r] if the field there was [text]: the parse of the text for the type of the column *)
Definition shows (col : column) (r : nat) (text : str) : Prop :=
  match ParseValue N text (c_type col) with
  | PReal x => col_missing col r = false /\ col_get_real N col r = Ok x /\ col_string N col r = Ok (d_show N x)
  | PInt z => col_missing col r = false /\ nth_error (c_int col) r = Some z /\ col_get_real N col r = Ok (d_of_int N z) /\ col_string N col r = Ok (to_string z)
  | PBool b => col_missing col r = false /\ nth_error (c_bool col) r = Some b /\ col_string N col r = Ok (if b then L "true" else L "false")
  | PStr s => col_missing col r = false /\
      (c_type col <> DATETIME -> col_string N col r = Ok s) /\
      (c_type col = DATETIME -> exists date time, ~ In "T"%char date /\ ~ In " "%char date /\
          (s = date ++ "T"%char :: time \/ s = date ++ " "%char :: time \/ (s = date /\ time = [])) /\ col_string N col r = Ok (date ++ L " " ++ time))
  | PMissing | PInvalid => col_missing col r = true /\ col_string N col r = Ok (L "NA") /\ col_get_real N col r = Ok (d_nan N)
  end.

(** the name of column [c]: the trimmed header field, or "Column" and the number *)
Definition header_name (hasHeader : bool) (row0 : list str) (c : nat) : str :=
  let nm := Trim (nth c row0 []) in
  if hasHeader && negb (is_empty nm) then nm else L "Column" ++ to_string (Z.of_nat c).

(** [loaded ds row0 rows h]: [ds] is the table with first line [row0] and data lines [rows] *)
Definition loaded (ds : dataset) (h : bool) (row0 : list str) (rows : list (list str)) (types : nat -> ctype) : Prop :=
  ds_rows ds = length rows /\ length (ds_cols ds) = length row0 /\ rectangular ds /\
  forall c, c < length row0 -> exists col, nth_error (ds_cols ds) c = Some col /\ c_name col = header_name h row0 c /\ c_type col = types c /\
    forall r row, nth_error rows r = Some row -> shows col r (nth c row []).

(** ** Proofs *)
Lemma full_shape : forall nm t vals, let col := full_col N nm t vals in
  c_name col = nm /\ c_type col = t /\ col_size col = length vals /\ length (c_mask col) = length vals /\ (t = DATETIME -> length (c_time col) = length vals).
Proof.
  intros nm t vals. unfold full_col, part_col, col_size.
  destruct t; cbn [c_name c_type c_real c_int c_bool c_string c_date c_time c_mask]; rewrite ?part_full, ?map_length; split; try reflexivity; split; try reflexivity;
    split; auto; try (split; [reflexivity|intros; discriminate]).
  1,2: destruct vals; cbn [length late]; rewrite ?map_length; reflexivity.
Qed.
Lemma split_T_spec : forall s pre, match split_T pre s with
  | Some (a, b) => exists x, a = pre ++ x /\ ~ In "T"%char x /\ ~ In " "%char x /\ (s = x ++ "T"%char :: b \/ s = x ++ " "%char :: b)
  | None => ~ In "T"%char s /\ ~ In " "%char s end.
Proof.
  induction s as [|c s IH]; intros pre; cbn [split_T]; [split; intros []|].
  destruct (Ascii.eqb_spec c "T") as [->|NT]; cbn [orb]; [exists []; rewrite app_nil_r; repeat split; auto; intros []|].
  destruct (Ascii.eqb_spec c " ") as [->|NS]; [exists []; rewrite app_nil_r; repeat split; auto; intros []|].
  specialize (IH (pre ++ [c])). destruct (split_T (pre ++ [c]) s) as [[a b]|].
  - destruct IH as (x & -> & H1 & H2 & H3). exists (c :: x). rewrite <- app_assoc. split; [reflexivity|]. split; [intros [E|X]; auto|]. split; [intros [E|X]; auto|].
    destruct H3 as [->| ->]; [left|right]; reflexivity.
  - destruct IH. split; intros [E|X]; auto.
Qed.
Lemma nth_map_error : forall A (f : str -> A) vals r v d, nth_error vals r = Some v -> nth r (map f vals) d = f v.
Proof. intros. apply nth_error_nth. apply map_nth_error. auto. Qed.
Lemma full_shows : forall nm t vals r v, nth_error vals r = Some v -> shows (full_col N nm t vals) r v.
Proof.
  intros nm t vals r v H. pose proof (nth_error_Some_lt _ _ _ _ H) as HL. pose proof (full_shape nm t vals) as (E1 & E2 & E3 & E4 & E5).
  assert (HM : col_missing (full_col N nm t vals) r = f_mask N t v).
  { unfold full_col, part_col, col_missing. destruct t; cbn [c_mask]; rewrite part_full; apply nth_map_error; auto. }
  unfold shows. rewrite E2. unfold f_mask in HM.
  assert (HS : (col_size (full_col N nm t vals) <=? r) = false) by (rewrite E3; apply Nat.leb_gt; auto).
  assert (G : forall A (f : str -> A), vget (map f vals) r = Ok (f v)) by (intros; apply vget_Ok, map_nth_error; auto).
  assert (GL : forall f : str -> str, vget (late (length vals) (map f vals)) r = Ok (f v)) by (intros; destruct vals; [destruct r; discriminate|cbn [late length]; auto]).
  destruct (ParseValue N v t) eqn:EP; cbn [parsed negb] in HM; (split; [exact HM|]); unfold col_get_real, col_string; rewrite HS, HM, E2; cbn [orb].
  - destruct t; try (exfalso; revert EP; unfold ParseValue; cbv zeta; destruct (IsMissingValue (Trim v)); try discriminate; repeat match goal with |- context [if ?b then _ else _] => destruct b end; try discriminate; destruct (stoi (Trim v)); discriminate).
    unfold full_col, part_col. cbn [c_real]. rewrite part_full. rewrite G. unfold f_real. rewrite EP. split; reflexivity.
  - destruct t; try (exfalso; revert EP; unfold ParseValue; cbv zeta; destruct (IsMissingValue (Trim v)); try discriminate; repeat match goal with |- context [if ?b then _ else _] => destruct b end; try discriminate; destruct (d_stod N (Trim v)); discriminate).
    unfold full_col, part_col. cbn [c_int]. rewrite part_full. rewrite G. rewrite (map_nth_error _ _ _ H). unfold f_int. rewrite EP. repeat split; reflexivity.
  - destruct t; try (exfalso; revert EP; unfold ParseValue; cbv zeta; destruct (IsMissingValue (Trim v)); try discriminate; try (destruct (d_stod N (Trim v)); discriminate); destruct (stoi (Trim v)); discriminate).
    unfold full_col, part_col. cbn [c_bool]. rewrite part_full. rewrite G. rewrite (map_nth_error _ _ _ H). unfold f_bool. rewrite EP. repeat split; reflexivity.
  - destruct t; try (exfalso; revert EP; unfold ParseValue; cbv zeta; destruct (IsMissingValue (Trim v)); try discriminate; repeat match goal with |- context [if ?b then _ else _] => destruct b end; try discriminate; try (destruct (d_stod N (Trim v)); discriminate); destruct (stoi (Trim v)); discriminate);
    (split; [try (intros X; now destruct X)|try (intros; discriminate)]).
    + intros _. unfold full_col, part_col. cbn [c_string]. rewrite part_full, G. unfold f_str. rewrite EP. reflexivity.
    + intros _. unfold full_col, part_col. cbn [c_date]. rewrite part_full, GL. unfold f_str. rewrite EP. reflexivity.
    + intros _. unfold full_col, part_col. cbn [c_time]. rewrite part_full, GL. unfold f_str. rewrite EP. reflexivity.
    + intros _. unfold full_col, part_col. cbn [c_date c_time]. rewrite !part_full, !G. unfold f_dt, f_str. rewrite EP. pose proof (split_T_spec s []) as HT.
      destruct (split_T [] s) as [[a b]|]; cbn [fst snd bind].
      * destruct HT as (x & -> & H1 & H2 & H3). exists x, b. repeat split; auto. destruct H3; auto.
      * destruct HT. exists s, []. repeat split; auto.
  - split; destruct t; reflexivity.
  - split; destruct t; reflexivity.
Qed.

Lemma header_spec : forall h row0 c, c < length row0 -> col_header h row0 c = Ok (header_name h row0 c).
Proof.
  intros h row0 c H. unfold col_header, header_name. destruct h; [|reflexivity]. destruct (nth_error_lt _ _ _ H) as [f E].
  assert (V : vget row0 c = Ok f) by (apply vget_Ok; auto). rewrite V. cbn [bind andb]. rewrite (nth_error_nth _ _ _ E). destruct (is_empty (Trim f)); reflexivity.
Qed.
Definition table_ds (name : str) (h : bool) (row0 : list str) (rows : list (list str)) (types : nat -> ctype) : dataset :=
  mkData name (map (fun c => full_col N (header_name h row0 c) (types c) (colvals rows c)) (seq 0 (length row0))) (length rows).
Lemma table_loaded : forall name h row0 rows types, loaded (table_ds name h row0 rows types) h row0 rows types.
Proof.
  intros name h row0 rows types. unfold loaded, table_ds. cbn [ds_rows ds_cols]. split; [reflexivity|]. split; [rewrite map_length, seq_length; reflexivity|]. split.
  - unfold rectangular. cbn [ds_rows ds_cols]. apply Forall_map, Forall_forall. intros c _. pose proof (full_shape (header_name h row0 c) (types c) (colvals rows c)) as (A & B & C & E & F).
    unfold colvals in *. rewrite map_length in *. split; [auto|]. split; [auto|]. rewrite B. auto.
  - intros c HC. exists (full_col N (header_name h row0 c) (types c) (colvals rows c)). split; [rewrite nth_error_map_seq by auto; reflexivity|].
    pose proof (full_shape (header_name h row0 c) (types c) (colvals rows c)) as (A & B & _). split; [exact A|]. split; [exact B|].
    intros r row HR. apply full_shows. exact (map_nth_error (fun row => nth c row []) _ _ HR).
Qed.
Lemma fill_table : forall name h row0 rows types,
  (cols <- fill N (map (fun c => alloc_col N (header_name h row0 c) (types c) (length rows)) (seq 0 (length row0))) rows ;; Ok (mkData name cols (length rows)))
  = Ok (table_ds name h row0 rows types).
Proof.
  intros. rewrite (fill_spec N (header_name h row0) types rows). cbn [bind]. unfold table_ds. do 2 f_equal. apply map_ext. intros c. unfold full_col, colvals. rewrite map_length. reflexivity.
Qed.

(** the fields of column c in the lines that have one *)
Definition present (rows : list (list str)) (c : nat) : list str := flat_map (fun row => match nth_error row c with Some v => [v] | None => [] end) rows.
Definition records (d : ascii) (content : str) : list (list str) := split_lines d (lines (RemoveBOM content)).

Lemma collect_app : forall {B} (f : list B -> nat -> res (list B)) (g : nat -> B) l, (forall acc x, In x l -> f acc x = Ok (acc ++ [g x])) ->
  for_each f l [] = Ok (map g l).
Proof.
  intros B f g l H. change (map g l) with ([] ++ map g l). generalize (@nil B). induction l as [|x l IH]; intros acc; cbn [for_each map]; [rewrite app_nil_r; reflexivity|].
  rewrite H by (left; reflexivity). cbn [bind]. rewrite IH by (intros; apply H; right; auto). rewrite <- app_assoc. reflexivity.
Qed.
Lemma load_string_eq : forall content d (h : bool) row0 rest, records d content = row0 :: rest ->
  let rows := if h then rest else row0 :: rest in
  LoadFromCSVString N content d h = Ok (table_ds [] h row0 rows (fun c => InferColumnType (present rows c))).
Proof.
  intros content d h row0 rest E rows. unfold LoadFromCSVString. unfold records in E. rewrite E. fold rows.
  unfold for_range. rewrite Nat.sub_0_r.
  assert (G : for_each (fun (cols : list column) c => nm <- col_header h row0 c ;;
        (let values := flat_map (fun row => match nth_error row c with Some v => [v] | None => [] end) rows in
        Ok (cols ++ [alloc_col N nm (InferColumnType values) (length rows)]))) (seq 0 (length row0)) [] =
     Ok (map (fun c => alloc_col N (header_name h row0 c) (InferColumnType (present rows c)) (length rows)) (seq 0 (length row0)))).
  { apply collect_app. intros acc c X. apply in_seq in X. rewrite header_spec by lia. reflexivity. }
  refine (eq_trans (f_equal (fun m => bind m _) G) _). cbn [bind]. apply fill_table.
Qed.
Theorem C24_string : forall content d (h : bool) row0 rest, records d content = row0 :: rest ->
  let rows := if h then rest else row0 :: rest in
  exists ds, LoadFromCSVString N content d h = Ok ds /\ loaded ds h row0 rows (fun c => InferColumnType (present rows c)).
Proof. intros content d h row0 rest E rows. eexists. split; [exact (load_string_eq content d h row0 rest E)|apply table_loaded]. Qed.
Theorem C24_string_empty : forall content d h, records d content = [] -> LoadFromCSVString N content d h = Throw DataErr.
Proof. intros content d h E. unfold LoadFromCSVString. unfold records in E. rewrite E. reflexivity. Qed.

(** *** Files *)
Lemma bom_lines : forall d bom, map nat_of_ascii bom = [239; 187; 191] -> forall s acc,
  split_lines d (match lines_from (bom ++ acc) s with [] => [] | l :: ls => RemoveBOM l :: ls end) = split_lines d (lines_from acc s).
Proof.
  intros d bom HB. induction s as [|c s IH]; intros acc; cbn [lines_from].
  - destruct (bom ++ acc) eqn:E; [destruct bom; discriminate|]. rewrite <- E. rewrite (proj1 (C23_bom acc) bom HB). destruct acc; reflexivity.
  - destruct (c =? "010")%char.
    + rewrite (proj1 (C23_bom acc) bom HB). reflexivity.
    + rewrite <- app_assoc. apply IH.
Qed.
Lemma first_line : forall s acc l ls, lines_from acc s = l :: ls -> exists rest, acc ++ s = l ++ rest.
Proof.
  induction s as [|c s IH]; intros acc l ls H; cbn [lines_from] in H.
  - destruct acc; [discriminate|]. injection H as <- _. exists []. reflexivity.
  - destruct (c =? "010")%char; [injection H as <- _; eauto|]. apply IH in H. destruct H as [rest H]. exists rest. rewrite <- H, <- app_assoc. reflexivity.
Qed.
(** removing the byte order mark from the first line or from the text comes to the same records *)
Lemma file_records : forall d content,
  split_lines d (match lines content with [] => [] | l :: ls => RemoveBOM l :: ls end) = records d content.
Proof.
  intros d content. unfold records.
  assert (HC : (exists bom t, map nat_of_ascii bom = [239; 187; 191] /\ content = bom ++ t) \/ (forall bom t, map nat_of_ascii bom = [239; 187; 191] -> content <> bom ++ t)).
  { destruct content as [|a [|b [|c t]]].
    1-3: right; intros [|x1 [|x2 [|x3 bom]]] t0 HB; try discriminate.
    destruct (list_eq_dec Nat.eq_dec (map nat_of_ascii [a; b; c]) [239; 187; 191]) as [E|NE].
    - left. exists [a; b; c], t. auto.
    - right. intros [|x1 [|x2 [|x3 [|x4 bom]]]] t0 HB X; try discriminate. injection X as -> -> -> _. apply NE, HB. }
  destruct HC as [(bom & t & HB & ->)|HN].
  - rewrite (proj1 (C23_bom t) bom HB). unfold lines. assert (E : lines_from [] (bom ++ t) = lines_from bom t).
    { destruct bom as [|x1 [|x2 [|x3 [|x4 bom]]]]; try discriminate. injection HB as H1 H2 H3.
      assert (NL : forall x n, nat_of_ascii x = n -> n <> 10 -> (x =? "010")%char = false) by (intros x n Hx Hn; apply Ascii.eqb_neq; intros ->; apply Hn; symmetry; exact Hx).
      cbn [app lines_from]. rewrite (NL x1 239), (NL x2 187), (NL x3 191) by (auto; lia). reflexivity. }
    rewrite E. pose proof (bom_lines d bom HB t []) as G. rewrite app_nil_r in G. exact G.
  - rewrite (proj2 (C23_bom content) HN). destruct (lines content) as [|l ls] eqn:E; [reflexivity|]. f_equal. f_equal. apply (proj2 (C23_bom l)).
    intros bom t HB X. apply first_line in E. destruct E as [rest E]. cbn [app] in E. apply (HN bom (t ++ rest) HB). rewrite E, X, <- app_assoc. reflexivity.
Qed.

(** the lines whose number of fields differs from that of the first line: their number and their number of fields *)
Definition mismatches (start n : nat) (rows : list (list str)) : list (nat * nat) :=
  flat_map (fun '(r, row) => if length row =? n then [] else [(S r, length row)]) (combine (seq start (length rows)) rows).

Lemma check_widths : forall (strict : bool) n (allData : list (list str)) rows start acc,
  (forall k row, nth_error rows k = Some row -> nth_error allData (start + k) = Some row) ->
  for_each (fun acc r => row <- vget allData r ;;
        if (length row =? n)%nat then Ok acc else if strict then Throw DataErr else Ok (acc ++ [(S r, length row)])) (seq start (length rows)) acc
  = if strict && negb (is_empty (mismatches start n rows)) then Throw DataErr else Ok (acc ++ mismatches start n rows).
Proof.
  intros strict n allData. induction rows as [|row rows IH]; intros start acc H; cbn [length seq for_each].
  - rewrite andb_false_r, app_nil_r. reflexivity.
  - assert (V : vget allData start = Ok row) by (apply vget_Ok; specialize (H 0 row eq_refl); rewrite Nat.add_0_r in H; exact H). rewrite V. cbn [bind].
    unfold mismatches. cbn [length seq combine flat_map].
    assert (H' : forall k row0, nth_error rows k = Some row0 -> nth_error allData (S start + k) = Some row0) by (intros k r0 X; rewrite Nat.add_succ_comm; apply H; exact X).
    destruct (length row =? n); cbn [app bind].
    + apply IH; auto.
    + destruct strict; cbn [bind andb is_empty negb]; [reflexivity|]. rewrite IH by auto. cbn [andb]. rewrite <- app_assoc. reflexivity.
Qed.

Definition csv_types (infer : bool) (rows : list (list str)) (c : nat) : ctype := if infer then InferColumnType (colvals rows c) else STRING.
Lemma load_csv_eq : forall name content (h : bool) d infer strict warn row0 rest, records d content = row0 :: rest ->
  let rows := if h then rest else row0 :: rest in let bad := mismatches (if h then 1 else 0) (length row0) rows in
  LoadCSV N name content h d infer strict warn =
  if strict && negb (is_empty bad) then Throw DataErr
  else Ok (table_ds name h row0 rows (csv_types infer rows), if strict || warn then bad else []).
Proof.
  intros name content h d infer strict warn row0 rest E rows bad. unfold LoadCSV. rewrite file_records, E. fold rows.
  unfold for_range. rewrite !Nat.sub_0_r.
  refine (eq_trans (f_equal (fun m => bind m _) (collect_app _ (header_name h row0) _ _)) _).
  { intros acc c X. apply in_seq in X. rewrite header_spec by lia. reflexivity. }
  cbn [bind].
  assert (LR : length (row0 :: rest) - (if h then 1 else 0) = length rows) by (unfold rows; destruct h; cbn [length]; lia). rewrite LR.
  assert (W : (if strict || warn then for_each (fun acc r => row <- vget (row0 :: rest) r ;;
        if (length row =? length row0)%nat then Ok acc else if strict then Throw DataErr else Ok (acc ++ [(S r, length row)])) (seq (if h then 1 else 0) (length rows)) [] else Ok [])
     = if strict && negb (is_empty bad) then Throw DataErr else Ok (if strict || warn then bad else [])).
  { destruct (strict || warn) eqn:ES.
    - rewrite (check_widths strict (length row0) (row0 :: rest) rows). { reflexivity. }
      intros k row X. unfold rows in X. destruct h; exact X.
    - destruct strict; [discriminate|]. reflexivity. }
  refine (eq_trans (f_equal (fun m => bind m _) W) _). destruct (strict && negb (is_empty bad)); [reflexivity|]. cbn [bind].
  refine (eq_trans (f_equal (fun m => bind m _) (collect_app _ (fun c => alloc_col N (header_name h row0 c) (csv_types infer rows c) (length rows)) _ _)) _).
  { intros acc c X. apply in_seq in X. unfold vget. rewrite nth_error_map_seq by lia. reflexivity. }
  cbn [bind]. pose proof (fill_table name h row0 rows (csv_types infer rows)) as F. unfold table_ds.
  destruct (fill N _ rows) as [cols|e| |]; cbn [bind] in *; try discriminate F. injection F as ->. reflexivity.
Qed.

Theorem C24_file : forall name content (h : bool) d infer strict warn row0 rest, records d content = row0 :: rest ->
  let rows := if h then rest else row0 :: rest in let bad := mismatches (if h then 1 else 0) (length row0) rows in
  (strict = true -> bad <> [] -> LoadCSV N name content h d infer strict warn = Throw DataErr) /\
  (strict = false \/ bad = [] -> exists ds, LoadCSV N name content h d infer strict warn = Ok (ds, if warn then bad else []) /\
     ds_name ds = name /\ loaded ds h row0 rows (fun c => if infer then InferColumnType (colvals rows c) else STRING)).
Proof.
  intros name content h d infer strict warn row0 rest E rows bad. pose proof (load_csv_eq name content h d infer strict warn row0 rest E) as G. cbv zeta in G. fold rows in G. fold bad in G. rewrite G. split.
  - intros -> NE. destruct bad; [contradiction|reflexivity].
  - intros H. exists (table_ds name h row0 rows (csv_types infer rows)). split.
    + destruct H as [->|HB]; [reflexivity|]. rewrite HB. cbn [is_empty negb]. rewrite andb_false_r. destruct strict, warn; reflexivity.
    + split; [reflexivity|apply table_loaded].
Qed.
Theorem C24_file_empty : forall name content h d infer strict warn, records d content = [] -> LoadCSV N name content h d infer strict warn = Throw DataErr.
Proof. intros. unfold LoadCSV. rewrite file_records, H. reflexivity. Qed.
End D.
