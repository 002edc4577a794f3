(** * C24, C48: written tables, agreement of the loaders, type inference *)

From Coq Require Import Ascii String DecimalString Decimal DecimalZ DecimalFacts List Bool Arith ZArith Lia.
From Verif Require Import Base Data_Model Data_Text Data_Proofs Data_CSV.
Import ListNotations.
Local Open Scope nat_scope.
Local Open Scope list_scope.

(** ** C48: type inference *)
(** the number of fields of [values] that are of the kind [k] *)
Definition count (k : kind) (values : list str) : nat := count_kind k values.
(** fields that are not missing *)
Definition non_missing (values : list str) : nat := length (filter (fun v => negb (kind_eqb KMissing (classify v))) values).
Lemma total_non_missing : forall values, length values - count_kind KMissing values = non_missing values.
Proof.
  intros values. unfold count_kind, non_missing. assert (E : length values = length (filter (fun v => kind_eqb KMissing (classify v)) values) + length (filter (fun v => negb (kind_eqb KMissing (classify v))) values)).
  { induction values as [|v values IH]; [reflexivity|]. cbn [filter length]. destruct (kind_eqb KMissing (classify v)); cbn [negb length]; lia. }
  lia.
Qed.
Lemma infer_nm : forall values, InferColumnType values =
  let total := non_missing values in
    if (total =? 0)%nat then STRING
    else if ninety (count_kind KDateTime values) total then DATETIME
    else if ninety (count_kind KDate values) total then DATE
    else if ninety (count_kind KTime values) total then TIME
    else if ninety (count_kind KBool values) total then BOOL
    else if ninety (count_kind KInt values) total then INT
    else if ninety (count_kind KInt values + count_kind KReal values) total then REAL
    else STRING.
Proof. intros [|v values]; [reflexivity|]. unfold InferColumnType. rewrite total_non_missing. reflexivity. Qed.
Lemma classify_empty : classify [] = KMissing.
Proof. reflexivity. Qed.

Section D.
Context {D : Type} (N : dnum D).

Lemma infer_present : forall rows c, InferColumnType (present rows c) = InferColumnType (colvals rows c).
Proof.
  intros rows c. assert (F : forall p : str -> bool, p [] = false -> length (filter p (present rows c)) = length (filter p (colvals rows c))).
  { intros p HP. induction rows as [|row rows IH]; [reflexivity|]. unfold present, colvals in *. cbn [flat_map map]. rewrite filter_app, app_length, IH. cbn [filter].
    destruct (nth_error row c) as [v|] eqn:E.
    - rewrite (nth_error_nth _ _ _ E). cbn [filter]. destruct (p v); reflexivity.
    - rewrite nth_overflow by (apply nth_error_None; auto). rewrite HP. reflexivity. }
  rewrite !infer_nm. unfold non_missing, count_kind. rewrite !F by (rewrite classify_empty; reflexivity). reflexivity.
Qed.
(** the string loader and the file loader give the same dataset, up to its name *)
Theorem C24_agree : forall name content d h,
  LoadCSV N name content h d true false false = (ds <- LoadFromCSVString N content d h ;; Ok (mkData name (ds_cols ds) (ds_rows ds), [])).
Proof.
  intros name content d h. destruct (records d content) as [|row0 rest] eqn:E.
  - rewrite C24_file_empty, C24_string_empty by auto. reflexivity.
  - rewrite (load_csv_eq N name content h d true false false row0 rest E), (load_string_eq N content d h row0 rest E). cbn [andb orb bind]. unfold table_ds. cbn [ds_cols ds_rows]. do 3 f_equal.
    apply map_ext. intros c. unfold csv_types. rewrite infer_present. reflexivity.
Qed.

(** ** Reading back what was written *)
Definition write_csv (d : ascii) (table : list (list str)) : str := flat_map (fun row => join d (map quoted row) ++ ["010"%char]) table.
Definition nonl (s : str) : Prop := ~ In "010"%char s.

Lemma join_quoted_nonl : forall d row, d <> "010"%char -> Forall nonl row -> nonl (join d (map quoted row)).
Proof.
  intros d row HD HF. assert (Q : forall s, nonl s -> nonl (quoted s)).
  { intros s HS. unfold quoted, nonl. intros [E|X]; [discriminate|]. apply in_app_or in X. destruct X as [X|[E|[]]]; [|discriminate].
    induction s as [|c s IH]; cbn [double_quotes] in X; [destruct X|]. destruct (c =? quote)%char.
    - destruct X as [E|[E|X]]; [discriminate|discriminate|]. apply IH; auto. intros Y; apply HS; right; auto.
    - destruct X as [E|X]; [apply HS; left; auto|]. apply IH; auto. intros Y; apply HS; right; auto. }
  induction HF as [|s row HS HF IH]; [intros []|]. destruct row as [|s2 row]; [apply Q; auto|].
  change (join d (map quoted (s :: s2 :: row))) with (quoted s ++ d :: join d (map quoted (s2 :: row))). intros X. apply in_app_or in X. destruct X as [X|[E|X]]; [apply (Q s HS), X|auto|apply IH, X].
Qed.
Lemma join_quoted_shape : forall d row, row <> [] -> exists m, join d (map quoted row) = quote :: m ++ [quote].
Proof.
  intros d row. induction row as [|s row IH]; intros NE; [contradiction|]. destruct row as [|s2 row].
  - exists (double_quotes s). reflexivity.
  - destruct IH as [m E]; [discriminate|]. change (join d (map quoted (s :: s2 :: row))) with (quoted s ++ d :: join d (map quoted (s2 :: row))). rewrite E. exists (double_quotes s ++ quote :: d :: quote :: m). unfold quoted. cbn [app]. rewrite <- !app_assoc. cbn [app]. reflexivity.
Qed.
Theorem C24_write_read : forall d table, d <> quote -> d <> "010"%char -> Forall (fun row => row <> [] /\ Forall nonl row) table ->
  records d (write_csv d table) = table.
Proof.
  intros d table HD HN HT. unfold records.
  assert (B : RemoveBOM (write_csv d table) = write_csv d table).
  { apply (proj2 (C23_bom _)). intros bom t HB X. destruct HT as [|row table [NE HF] HT]; [destruct bom; discriminate|].
    unfold write_csv in X. cbn [flat_map] in X. destruct (join_quoted_shape d row NE) as [m E]. rewrite E in X. destruct bom as [|x1 bom]; [discriminate|]. injection X as <- _. discriminate HB. }
  rewrite B. unfold write_csv.
  assert (EL : lines (flat_map (fun row => join d (map quoted row) ++ ["010"%char]) table) = map (fun row => join d (map quoted row)) table).
  { rewrite <- (app_nil_r (flat_map _ table)). 
    replace (flat_map (fun row => join d (map quoted row) ++ ["010"%char]) table) with (flat_map (fun l => l ++ ["010"%char]) (map (fun row => join d (map quoted row)) table)).
    - rewrite (lines_unlines _ []); [apply app_nil_r| |intros []]. apply Forall_map. eapply Forall_impl; [|exact HT]. cbn. intros row [_ HF]. apply join_quoted_nonl; auto.
    - clear. induction table; cbn; [reflexivity|]. rewrite IHtable. reflexivity. }
  rewrite EL. clear EL B. unfold split_lines. induction HT as [|row table [NE HF] HT IH]; [reflexivity|]. cbn [map filter].
  destruct (join_quoted_shape d row NE) as [m E].
  assert (T : is_empty (Trim (join d (map quoted row))) = false).
  { destruct (C23_trim (join d (map quoted row))) as (a & b & E1 & E2 & _). destruct (Trim (join d (map quoted row))); [|reflexivity]. exfalso. cbn [app] in E1. rewrite <- E1, E in E2. inversion E2. discriminate. }
  rewrite T. cbn [negb map]. rewrite IH. f_equal.
  assert (CR : chop_cr (join d (map quoted row)) = join d (map quoted row)) by (unfold chop_cr; rewrite E; rewrite app_comm_cons, rev_app_distr; reflexivity).
  rewrite CR. apply C23_split_join; auto. clear. induction row; constructor; auto. left. reflexivity.
Qed.

(** ** Integers *)
Lemma uint_digits : forall u, Forall (fun c => isdigit c = true) (L (NilEmpty.string_of_uint u)).
Proof. induction u; cbn; constructor; auto. Qed.
Fixpoint dval (acc : Z) (u : uint) : Z :=
  (match u with
  | Nil => acc | D0 u => dval (acc * 10 + 0) u | D1 u => dval (acc * 10 + 1) u | D2 u => dval (acc * 10 + 2) u | D3 u => dval (acc * 10 + 3) u | D4 u => dval (acc * 10 + 4) u
  | D5 u => dval (acc * 10 + 5) u | D6 u => dval (acc * 10 + 6) u | D7 u => dval (acc * 10 + 7) u | D8 u => dval (acc * 10 + 8) u | D9 u => dval (acc * 10 + 9) u end)%Z.
Lemma digits_val_uint : forall u acc, digits_val acc (L (NilEmpty.string_of_uint u)) = dval acc u.
Proof. induction u; intros acc; [reflexivity|..]; cbn [NilEmpty.string_of_uint L list_ascii_of_string digits_val dval]; (match goal with |- (if ?b then _ else _) = _ => change b with true end); cbv iota; rewrite <- IHu; reflexivity. Qed.
Lemma of_uint_acc_dval : forall u p, Zpos (Pos.of_uint_acc u p) = dval (Zpos p) u.
Proof.
  induction u; intros p; cbn -[Z.add Z.mul Pos.mul Pos.add]; try reflexivity;
  first [change (N.pos (Pos.of_uint_acc u (10 * p))) with (N.pos (Pos.of_uint_acc u (10 * p)))|idtac];
  rewrite IHu; f_equal; lia.
Qed.
Lemma of_uint_dval : forall u, Z.of_uint u = dval 0 u.
Proof.
  unfold Z.of_uint. induction u; cbn -[Z.add Z.mul]; try reflexivity; try exact IHu; apply of_uint_acc_dval.
Qed.
End D.
