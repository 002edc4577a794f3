(** * C23: splitting, trimming, lines *)

From Coq Require Import Ascii String List Bool Arith ZArith Lia.
From Verif Require Import Base Data_Model.
Import ListNotations.
Local Open Scope nat_scope.
Local Open Scope list_scope.
Local Open Scope char_scope.

Definition quote : ascii := """".

(** ** Specification *)
(** a field written in quotes, embedded quotes doubled (RFC 4180) *)
Fixpoint double_quotes (s : str) : str := match s with [] => [] | c :: s' => if c =? quote then quote :: quote :: double_quotes s' else c :: double_quotes s' end.
Definition quoted (s : str) : str := quote :: double_quotes s ++ [quote].
(** fields joined by a delimiter *)
Fixpoint join (d : ascii) (l : list str) : str := match l with [] => [] | [s] => s | s :: l' => s ++ d :: join d l' end.
(** [enc s t]: [t] is a way to write the field [s]: in quotes, or as it is if it has neither quote nor delimiter *)
Definition enc (d : ascii) (s t : str) : Prop := t = quoted s \/ (t = s /\ ~ In quote s /\ ~ In d s).
(** the delimiters of a line outside quotes: those with an even number of quotes before them *)
Definition outside_delims (d : ascii) (line : str) : nat :=
  length (filter (fun i => match nth_error line i with Some c => (c =? d) && Nat.even (count_occ ascii_dec (firstn i line) quote) | None => false end) (seq 0 (length line))).

(** ** Proofs *)
Lemma split_result : forall d line r f q, split_from d r f q line = r ++ split_from d [] f q line.
Proof.
  intros d line. remember (length line) as n. assert (H : length line <= n) by lia. clear Heqn. revert line H.
  induction n as [|n IH]; intros line H r f q; (destruct line as [|c line]; [reflexivity|]); cbn [length] in H; [lia|].
  cbn [split_from]. destruct (c =? """").
  - destruct q; [|apply IH; lia]. destruct line as [|c2 line]; [apply IH; cbn; lia|]. cbn [length] in H. destruct (c2 =? """"); apply IH; cbn [length]; lia.
  - destruct ((c =? d) && negb q); [|apply IH; lia]. rewrite IH by lia. rewrite (IH line ltac:(lia) ([] ++ [f])). rewrite <- app_assoc. reflexivity.
Qed.

(** inside quotes *)
Lemma split_double : forall d s f rest, (forall c r, rest = c :: r -> c <> quote) ->
  split_from d [] f true (double_quotes s ++ quote :: rest) = split_from d [] (f ++ s) false rest.
Proof.
  intros d s. induction s as [|c s IH]; intros f rest HR; cbn [double_quotes app].
  - cbn [split_from]. change (quote =? """") with true. cbn [negb]. rewrite app_nil_r. destruct rest as [|c r]; [reflexivity|].
    specialize (HR c r eq_refl). destruct (Ascii.eqb_spec c """"); [contradiction|reflexivity].
  - destruct (Ascii.eqb_spec c quote) as [->|NE]; cbn [app split_from].
    + change (quote =? """") with true. cbv iota. rewrite IH by auto. rewrite <- app_assoc. reflexivity.
    + destruct (Ascii.eqb_spec c """"); [contradiction|]. rewrite andb_false_r. rewrite IH by auto. rewrite <- app_assoc. reflexivity.
Qed.
Lemma split_plain : forall d s f rest, ~ In quote s -> ~ In d s -> split_from d [] f false (s ++ rest) = split_from d [] (f ++ s) false rest.
Proof.
  intros d s. induction s as [|c s IH]; intros f rest HQ HD; cbn [app].
  - rewrite app_nil_r. reflexivity.
  - cbn [split_from]. destruct (Ascii.eqb_spec c """") as [->|_]; [destruct HQ; left; reflexivity|].
    destruct (Ascii.eqb_spec c d) as [->|_]; [destruct HD; left; reflexivity|]. cbn [andb]. rewrite IH by (intros X; auto using in_cons). rewrite <- app_assoc. reflexivity.
Qed.
Lemma split_enc : forall d s t rest, enc d s t -> (forall c r, rest = c :: r -> c <> quote) -> split_from d [] [] false (t ++ rest) = split_from d [] s false rest.
Proof.
  intros d s t rest [->|[-> [HQ HD]]] HR.
  - unfold quoted. cbn [app split_from]. change (quote =? """") with true. cbn [negb]. rewrite <- app_assoc. cbn [app]. rewrite split_double by auto. reflexivity.
  - rewrite split_plain by auto. reflexivity.
Qed.

Theorem C23_split_join : forall d fields texts, d <> quote -> fields <> [] -> Forall2 (enc d) fields texts ->
  SplitLine (join d texts) d = fields.
Proof.
  intros d fields texts HD HN HF. unfold SplitLine. induction HF as [|s t fields texts HE HF IH]; [contradiction|].
  destruct HF as [|s2 t2 fields texts HE2 HF]; cbn [join].
  - rewrite <- (app_nil_r t). rewrite (split_enc d s) by (auto; intros; discriminate). reflexivity.
  - rewrite (split_enc d s) by (auto; intros c r E; injection E as <- _; auto).
    cbn [split_from]. destruct (Ascii.eqb_spec d """"); [contradiction|]. rewrite Ascii.eqb_refl. cbn [andb negb]. rewrite split_result. cbn [app].
    change (s :: split_from d [] [] false (join d (t2 :: texts)) = s :: s2 :: fields). rewrite IH by discriminate. reflexivity.
Qed.
Print Assumptions C23_split_join.

Definition parity_delims (d : ascii) : bool -> str -> nat :=
  fix go (q : bool) (line : str) : nat :=
    match line with [] => 0 | c :: l => (if (c =? d) && negb q then 1 else 0) + go (if c =? quote then negb q else q) l end.
Lemma outside_parity : forall d line pre,
  length (filter (fun i => match nth_error (pre ++ line) i with Some c => (c =? d) && Nat.even (count_occ ascii_dec (firstn i (pre ++ line)) quote) | None => false end) (seq (length pre) (length line)))
  = parity_delims d (negb (Nat.even (count_occ ascii_dec pre quote))) line.
Proof.
  intros d line. induction line as [|c line IH]; intros pre; [reflexivity|]. cbn [length seq filter parity_delims].
  rewrite nth_error_app2, Nat.sub_diag by lia. cbn [nth_error]. rewrite firstn_app, Nat.sub_diag, firstn_all. cbn [firstn]. rewrite app_nil_r, negb_involutive.
  specialize (IH (pre ++ [c])). rewrite <- app_assoc in IH. cbn [app] in IH. rewrite app_length in IH. cbn [length] in IH. rewrite Nat.add_1_r in IH.
  assert (E : (if c =? quote then Nat.even (count_occ ascii_dec pre quote) else negb (Nat.even (count_occ ascii_dec pre quote))) = negb (Nat.even (count_occ ascii_dec (pre ++ [c]) quote))).
  { rewrite count_occ_app. cbn [count_occ]. destruct (ascii_dec c quote) as [->|NE].
    - rewrite Ascii.eqb_refl, Nat.add_1_r, Nat.even_succ, <- Nat.negb_even, negb_involutive. reflexivity.
    - rewrite Nat.add_0_r. destruct (Ascii.eqb_spec c quote); [contradiction|reflexivity]. }
  rewrite E, <- IH. destruct ((c =? d) && Nat.even (count_occ ascii_dec pre quote)); reflexivity.
Qed.
Lemma split_count : forall d, d <> quote -> forall line f q, length (split_from d [] f q line) = S (parity_delims d q line).
Proof.
  intros d HD line. remember (length line) as n. assert (H : length line <= n) by lia. clear Heqn. revert line H.
  induction n as [|n IH]; intros line H f q; (destruct line as [|c line]; [reflexivity|]); cbn [length] in H; [lia|].
  cbn [split_from parity_delims]. change quote with """" in *. destruct (Ascii.eqb_spec c """") as [->|NE].
  - replace ("""" =? d) with false by (symmetry; apply Ascii.eqb_neq; auto). cbn [andb Nat.add].
    destruct q; [|apply IH; lia]. destruct line as [|c2 line]; [apply IH; cbn; lia|]. cbn [length] in H. destruct (Ascii.eqb_spec c2 """") as [->|NE2].
    + rewrite IH by lia. cbn [parity_delims negb]. replace ("""" =? d) with false by (symmetry; apply Ascii.eqb_neq; auto). rewrite Ascii.eqb_refl. reflexivity.
    + apply IH; cbn [length]; lia.
  - destruct ((c =? d) && negb q); [|apply IH; lia]. rewrite split_result, app_length, IH by lia. reflexivity.
Qed.
Theorem C23_field_count : forall d line, d <> quote -> length (SplitLine line d) = S (outside_delims d line).
Proof. intros d line HD. unfold SplitLine, outside_delims. rewrite split_count by auto. f_equal. symmetry. exact (outside_parity d line []). Qed.
Print Assumptions C23_field_count.

(** trimming *)
Lemma drop_blank_spec : forall s, exists a, s = a ++ drop_blank s /\ Forall (fun c => blank c = true) a /\ (forall c r, drop_blank s = c :: r -> blank c = false).
Proof.
  induction s as [|c s IH]; [exists []; repeat split; auto; intros; discriminate|]. cbn [drop_blank]. destruct (blank c) eqn:E.
  - destruct IH as (a & IH1 & IH2 & IH3). exists (c :: a). split; [cbn; rewrite <- IH1; reflexivity|]. split; [constructor; auto|auto].
  - exists []. split; [reflexivity|]. split; [constructor|]. intros c' r X. injection X as <- _. auto.
Qed.
(** exactly the blanks at both ends are removed *)
Theorem C23_trim : forall s, exists a b, s = a ++ Trim s ++ b /\ Forall (fun c => blank c = true) (a ++ b) /\
  (forall c r, Trim s = c :: r -> blank c = false) /\ (forall c r, Trim s = r ++ [c] -> blank c = false).
Proof.
  intros s. destruct (drop_blank_spec s) as (a & A1 & A2 & A3). destruct (drop_blank_spec (rev (drop_blank s))) as (b & B1 & B2 & B3).
  exists a, (rev b). unfold Trim. assert (E : drop_blank s = rev (drop_blank (rev (drop_blank s))) ++ rev b).
  { apply (f_equal (@rev ascii)) in B1. rewrite rev_involutive, rev_app_distr in B1. exact B1. }
  split; [rewrite <- E; exact A1|]. split; [apply Forall_app; split; auto; apply Forall_rev; auto|]. split.
  - intros c r H. rewrite H in E. apply (A3 c (r ++ rev b)). exact E.
  - intros c r H. apply (f_equal (@rev ascii)) in H. rewrite rev_involutive, rev_app_distr in H. apply (B3 c (rev r)). exact H.
Qed.
Print Assumptions C23_trim.
Theorem C23_bom : forall s, (forall bom, map nat_of_ascii bom = [239; 187; 191] -> RemoveBOM (bom ++ s) = s) /\
  ((forall bom t, map nat_of_ascii bom = [239; 187; 191] -> s <> bom ++ t) -> RemoveBOM s = s).
Proof.
  intros s. split.
  - intros [|a [|b [|c [|x bom]]]] H; try discriminate. injection H as Ha Hb Hc. cbn. rewrite Ha, Hb, Hc. reflexivity.
  - intros H. destruct s as [|a [|b [|c s]]]; try reflexivity. cbn. destruct (Nat.eqb_spec (nat_of_ascii a) 239); [|reflexivity]. destruct (Nat.eqb_spec (nat_of_ascii b) 187); [|reflexivity].
    destruct (Nat.eqb_spec (nat_of_ascii c) 191); [|reflexivity]. destruct (H [a; b; c] s); [|reflexivity]. cbn. congruence.
Qed.
Print Assumptions C23_bom.
Example C23_example : SplitLine (L "a,""b,""""c"""""", d ,,""),""") "," = map L ["a"; "b,""c"""; " d "; ""; "),"]%string /\
  enc "," (L "b,""c""") (L """b,""""c""""""") /\ outside_delims "," (L "a,""b,""""c"""""", d ,,""),""") = 4 /\ Trim (L "  x y ") = L "x y".
Proof. split; [vm_compute; reflexivity|]. split; [left; vm_compute; reflexivity|]. split; vm_compute; reflexivity. Qed.

(** lines *)
Lemma lines_from_app : forall l acc rest, ~ In "010" l -> lines_from acc (l ++ "010" :: rest) = (acc ++ l) :: lines_from [] rest.
Proof.
  induction l as [|c l IH]; intros acc rest H; cbn [app lines_from].
  - rewrite Ascii.eqb_refl, app_nil_r. reflexivity.
  - destruct (Ascii.eqb_spec c "010") as [->|NE]; [destruct H; left; reflexivity|]. rewrite IH by (intros X; apply H; right; exact X). rewrite <- app_assoc. reflexivity.
Qed.
Lemma lines_from_last : forall l acc, ~ In "010" l -> lines_from acc l = match acc ++ l with [] => [] | _ => [acc ++ l] end.
Proof.
  induction l as [|c l IH]; intros acc H; cbn [lines_from]; [rewrite app_nil_r; destruct acc; reflexivity|].
  destruct (Ascii.eqb_spec c "010") as [->|NE]; [destruct H; left; reflexivity|]. rewrite IH by (intros X; apply H; right; exact X). rewrite <- app_assoc. reflexivity.
Qed.
(** newline-free lines, each ended by a newline (the last one perhaps not, if it is not empty), are read back *)
Lemma lines_unlines : forall ls last, Forall (fun l => ~ In "010" l) ls -> ~ In "010" last ->
  lines (flat_map (fun l => l ++ ["010"]) ls ++ last) = ls ++ match last with [] => [] | _ => [last] end.
Proof.
  intros ls last HF HL. unfold lines. induction HF as [|l ls H HF IH]; cbn [flat_map app].
  - rewrite lines_from_last by auto. reflexivity.
  - rewrite <- !app_assoc. cbn [app]. rewrite lines_from_app by auto. rewrite IH. reflexivity.
Qed.
