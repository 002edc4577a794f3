(** * C48: type inference *)

From Coq Require Import Ascii String DecimalString Decimal DecimalZ DecimalFacts List Bool Arith ZArith Lia Permutation.
From Verif Require Import Base Data_Model Data_Text Data_Proofs Data_CSV Data_Regex Data_Props.
Import ListNotations.
Local Open Scope nat_scope.
Local Open Scope list_scope.

(** ** Specification *)
(** texts counted as missing and as truth values, in any case *)
Definition missing_text (s : str) : Prop := In (map tolower s) (map L [""; "na"; "n/a"; "nan"; "null"; "none"; "."; "?"; "-"]%string).
Definition bool_text (s : str) : Prop := In (map tolower s) (map L ["true"; "false"; "yes"; "no"; "t"; "f"; "y"; "n"]%string).

Lemma streqb_eq : forall a b, streqb a b = true <-> a = b.
Proof.
  induction a as [|x a IH]; destruct b as [|y b]; cbn; split; intros H; try discriminate; auto.
  - apply andb_true_iff in H. destruct H as [E H]. apply Ascii.eqb_eq in E. apply IH in H. congruence.
  - injection H as -> ->. rewrite Ascii.eqb_refl. apply IH. reflexivity.
Qed.
Lemma existsb_streqb : forall s l, existsb (streqb s) l = true <-> In s l.
Proof.
  intros s l. rewrite existsb_exists. split.
  - intros (x & H & E). apply streqb_eq in E. subst. auto.
  - intros H. exists s. split; auto. apply streqb_eq. reflexivity.
Qed.
Lemma missing_iff : forall s, IsMissingValue s = true <-> missing_text s.
Proof.
  intros [|c s]; [split; auto; intros _; left; reflexivity|]. unfold IsMissingValue. rewrite existsb_streqb. unfold missing_text.
  set (w := map tolower (c :: s)). cbn [map In]. tauto.
Qed.
Definition has (p : ascii -> bool) (s : str) : Prop := exists c, In c s /\ p c = true.
Lemma tolower_digit : forall c, isdigit c = true -> isdigit (tolower c) = true.
Proof.
  intros c H. unfold tolower, isdigit in *. apply andb_true_iff in H. destruct H as [H1 H2]. apply Nat.leb_le in H1, H2.
  destruct (Nat.leb_spec 65 (nat_of_ascii c)); [lia|]. cbn [andb]. apply andb_true_iff. split; apply Nat.leb_le; auto.
Qed.
Lemma no_digit_const : forall s l, In (map tolower s) (map L l) -> forallb (fun w => forallb (fun c => negb (isdigit c)) w) (map L l) = true -> ~ has isdigit s.
Proof.
  intros s l H F (c & HC & HD). rewrite forallb_forall in F. specialize (F _ H). rewrite forallb_forall in F. specialize (F (tolower c)).
  rewrite tolower_digit in F by auto. cbn in F. discriminate F. apply in_map. auto.
Qed.
Lemma missing_no_digit : forall s, missing_text s -> ~ has isdigit s.
Proof. intros s H. eapply no_digit_const; [exact H|reflexivity]. Qed.
Lemma bool_no_digit : forall s, bool_text s -> ~ has isdigit s.
Proof. intros s H. eapply no_digit_const; [exact H|reflexivity]. Qed.
Lemma missing_not_bool : forall s, missing_text s -> ~ bool_text s.
Proof.
  intros s H B. unfold missing_text, bool_text in *. generalize dependent (map tolower s). intros w H B.
  cbn in H, B. repeat (destruct H as [<-|H]); try contradiction; repeat (destruct B as [B|B]); try discriminate B; contradiction.
Qed.

Lemma has_app : forall p a b, has p (a ++ b) <-> has p a \/ has p b.
Proof.
  intros p a b. unfold has. split.
  - intros (c & H & E). apply in_app_or in H. destruct H; [left|right]; eauto.
  - intros [(c & H & E)|(c & H & E)]; exists c; split; auto; apply in_or_app; auto.
Qed.
Lemma has_cons : forall p a b, has p (a :: b) <-> p a = true \/ has p b.
Proof.
  intros p a b. unfold has. split.
  - intros (c & [->|H] & E); eauto.
  - intros [E|(c & H & E)]; [exists a|exists c]; split; auto; [left|right]; auto.
Qed.
Lemma has_nil : forall p, ~ has p [].
Proof. intros p (c & [] & _). Qed.
Lemma digits_has : forall p s, (forall c, isdigit c = true -> p c = false) -> digits s -> ~ has p s.
Proof. intros p s H HD (c & HC & E). unfold digits in HD. rewrite Forall_forall in HD. rewrite H in E; [discriminate|auto]. Qed.
Lemma digits_has_digit : forall s, digits s -> s <> [] -> has isdigit s.
Proof. intros [|c s] HD NE; [contradiction|]. inversion HD; subst. exists c. split; [left; reflexivity|auto]. Qed.
Lemma digits_n_has_digit : forall a b s, 1 <= a -> digits_n a b s -> has isdigit s.
Proof. intros a b s H [HD HL]. apply digits_has_digit; auto. intros ->. cbn in HL. lia. Qed.

Definition colon (c : ascii) : bool := (c =? ":")%char.
Definition dash (c : ascii) : bool := ((c =? "-") || (c =? "/"))%char.
Definition expo (c : ascii) : bool := ((c =? "e") || (c =? "E"))%char.
Ltac digit_not := let c := fresh in intros c; unfold isdigit, colon, dash, expo; destruct c as [[] [] [] [] [] [] [] []]; vm_compute; intros; congruence.
Lemma colon_digit : forall c, isdigit c = true -> colon c = false. Proof. digit_not. Qed.
Lemma dash_digit : forall c, isdigit c = true -> dash c = false. Proof. digit_not. Qed.
Lemma expo_digit : forall c, isdigit c = true -> expo c = false. Proof. digit_not. Qed.

Lemma int_real : forall s, int_text s -> real_text s.
Proof.
  intros s (sg & ds & -> & A & B & C). exists sg, ds, []. rewrite app_nil_r. split; [reflexivity|]. split; [auto|]. split; [|left; reflexivity].
  left. exists ds, []. rewrite app_nil_r. split; [left; reflexivity|]. split; [auto|]. split; [constructor|auto].
Qed.
Lemma real_digit : forall s, real_text s -> has isdigit s.
Proof.
  intros s (sg & m & e & -> & _ & M & _). apply has_app. right. apply has_app. left. destruct M as [(a & b & [->| ->] & A & B & C)|(b & -> & B & C)].
  1,2: apply has_app; left; apply digits_has_digit; auto.
  apply has_cons. right. apply digits_has_digit; auto.
Qed.
Lemma mantissa_only : forall p m, (forall c, isdigit c = true -> p c = false) -> p "."%char = false -> mantissa m -> ~ has p m.
Proof.
  intros p m HP HD M. destruct M as [(a & b & [->| ->] & A & B & C)|(b & -> & B & C)]; rewrite ?has_app, ?has_cons, ?HD; intros X; pose proof (digits_has p b HP B); try pose proof (digits_has p a HP A); intuition discriminate.
Qed.
Lemma sign_only : forall p sg, p "-"%char = false -> p "+"%char = false -> sign sg -> ~ has p sg.
Proof. intros p sg H1 H2 [->|[->| ->]]; rewrite ?has_cons, ?H1, ?H2; intros X; pose proof (has_nil p); intuition discriminate. Qed.
Lemma real_no_colon : forall s, real_text s -> ~ has colon s.
Proof.
  intros s (sg & m & e & -> & A & M & E). rewrite !has_app. intros [X|[X|X]].
  - revert X. apply sign_only; auto.
  - revert X. apply mantissa_only; auto using colon_digit.
  - destruct E as [->|(x & sg' & ds & -> & E1 & E2 & E3 & E4)]; [exact (has_nil _ X)|]. apply has_cons in X. destruct X as [X|X].
    + destruct E1 as [<-|[<-|[]]]; discriminate.
    + apply has_app in X. destruct X as [X|X]; revert X; [apply sign_only; auto|apply digits_has; auto using colon_digit].
Qed.
Lemma dash_one : forall c, one_of "-/" c -> dash c = true /\ colon c = false /\ expo c = false /\ isdigit c = false.
Proof. intros c [<-|[<-|[]]]; repeat split; reflexivity. Qed.
Lemma date_not_real : forall s, date_text s -> ~ real_text s.
Proof.
  intros s (y & s1 & m & s2 & d & -> & [HY LY] & [HM LM] & [HD LD] & H1 & H2) (sg & mm & e & E & A & M & X).
  apply dash_one in H1, H2. destruct H1 as (D1 & _ & X1 & _). destruct H2 as (_ & _ & X2 & _).
  assert (NX : ~ has expo (y ++ s1 :: m ++ s2 :: d)).
  { rewrite has_app, has_cons, has_app, has_cons, X1, X2. intros Y. pose proof (digits_has expo y expo_digit HY). pose proof (digits_has expo m expo_digit HM). pose proof (digits_has expo d expo_digit HD). intuition discriminate. }
  destruct X as [->|(x & sg' & ds & -> & E1 & _)].
  2:{ apply NX. rewrite E. rewrite !has_app, has_cons. right. right. left. destruct E1 as [<-|[<-|[]]]; reflexivity. }
  rewrite app_nil_r in E. destruct y as [|c y]; [cbn in LY; lia|]. inversion HY as [|? ? HC HY']; subst.
  assert (S0 : sg = []).
  { destruct A as [->|[->| ->]]; [reflexivity| |]; cbn in E; injection E as -> _; discriminate. }
  subst sg. cbn [app] in E. assert (HD1 : has dash mm) by (rewrite <- E, has_cons, has_app, has_cons, D1; auto).
  revert HD1. apply mantissa_only; auto using dash_digit.
Qed.
Lemma date_no_colon : forall s, date_text s -> ~ has colon s.
Proof.
  intros s (y & s1 & m & s2 & d & -> & [HY LY] & [HM LM] & [HD LD] & H1 & H2). apply dash_one in H1, H2. destruct H1 as (_ & C1 & _). destruct H2 as (_ & C2 & _).
  rewrite has_app, has_cons, has_app, has_cons, C1, C2. intros Y. pose proof (digits_has colon y colon_digit HY). pose proof (digits_has colon m colon_digit HM). pose proof (digits_has colon d colon_digit HD). intuition discriminate.
Qed.
Lemma date_digit : forall s, date_text s -> has isdigit s.
Proof. intros s (y & s1 & m & s2 & d & -> & HY & _). apply has_app. left. eapply digits_n_has_digit; [|exact HY]; lia. Qed.
Lemma date_dash : forall s, date_text s -> has dash s.
Proof. intros s (y & s1 & m & s2 & d & -> & _ & _ & _ & H1 & _). apply has_app. right. apply has_cons. left. apply dash_one in H1. tauto. Qed.
Lemma clock_facts : forall s, clock_text s -> has isdigit s /\ has colon s /\ ~ has dash s.
Proof.
  intros s (h & m & sec & -> & HH & HM & HS). split; [|split].
  - apply has_app. left. eapply digits_n_has_digit; [|exact HH]; lia.
  - apply has_app. right. apply has_cons. left. reflexivity.
  - destruct HH as [HH _], HM as [HM _]. rewrite has_app, has_cons, has_app. pose proof (digits_has dash h dash_digit HH). pose proof (digits_has dash m dash_digit HM).
    assert (~ has dash sec). { destruct HS as [->|(d & -> & [HD _])]; [apply has_nil|]. rewrite has_cons. pose proof (digits_has dash d dash_digit HD). intros [X|X]; [discriminate|auto]. }
    intros Y. destruct Y as [Y|[Y|[Y|Y]]]; auto. discriminate.
Qed.
Lemma time_facts : forall s, time_text s -> has isdigit s /\ has colon s /\ ~ has dash s.
Proof.
  intros s (c & f & -> & HC & HF). apply clock_facts in HC. destruct HC as (A & B & C). rewrite !has_app. split; [auto|]. split; [auto|]. intros [X|X]; [auto|].
  destruct HF as [->|(d & -> & HD & _)]; [exact (has_nil _ X)|]. apply has_cons in X. destruct X as [X|X]; [discriminate|]. revert X. apply digits_has; auto using dash_digit.
Qed.
Lemma datetime_facts : forall s, datetime_text s -> has isdigit s /\ has colon s /\ has dash s.
Proof.
  intros s (d & sep & c & -> & HD & _ & HC). apply clock_facts in HC. rewrite !has_app, !has_cons. pose proof (date_dash d HD). tauto.
Qed.

(** ** Theorems *)
(** what counts as which kind *)
Theorem C48_classify : forall v, let t := Trim v in
  (classify v = KMissing <-> missing_text t) /\ (classify v = KInt <-> int_text t) /\ (classify v = KReal <-> real_text t /\ ~ int_text t) /\
  (classify v = KBool <-> bool_text t) /\ (classify v = KDateTime <-> datetime_text t) /\ (classify v = KDate <-> date_text t) /\ (classify v = KTime <-> time_text t).
Proof.
  intros v t. unfold classify. fold t. clearbody t.
  pose proof (missing_iff t) as M. pose proof (C48_regex t intPattern) as I. rewrite int_pattern in I. pose proof (C48_regex t realPattern) as R. rewrite real_pattern in R.
  pose proof (existsb_streqb (map tolower t) (map L ["true"; "false"; "yes"; "no"; "t"; "f"; "y"; "n"]%string)) as B. fold (bool_text t) in B.
  pose proof (C48_regex t dateTimePattern) as DT. rewrite datetime_pattern in DT. pose proof (C48_regex t datePattern) as DA. rewrite date_pattern in DA. pose proof (C48_regex t timePattern) as TI. rewrite time_pattern in TI.
  pose proof (missing_no_digit t). pose proof (bool_no_digit t). pose proof (missing_not_bool t). pose proof (int_real t). pose proof (real_digit t). pose proof (real_no_colon t). pose proof (date_not_real t).
  pose proof (date_no_colon t). pose proof (date_digit t). pose proof (time_facts t). pose proof (datetime_facts t).
  destruct (IsMissingValue t); [assert (missing_text t) by (apply M; reflexivity); repeat split; intros; try discriminate; tauto|]. assert (~ missing_text t) by (rewrite <- M; discriminate). clear M.
  destruct (regex_match t intPattern); [assert (int_text t) by (apply I; reflexivity); repeat split; intros; try discriminate; tauto|]. assert (~ int_text t) by (rewrite <- I; discriminate). clear I.
  destruct (regex_match t realPattern); [assert (real_text t) by (apply R; reflexivity); repeat split; intros; try discriminate; tauto|]. assert (~ real_text t) by (rewrite <- R; discriminate). clear R.
  destruct (existsb _ _); [assert (bool_text t) by (apply B; reflexivity); repeat split; intros; try discriminate; tauto|]. assert (~ bool_text t) by (rewrite <- B; discriminate). clear B.
  destruct (regex_match t dateTimePattern); [assert (datetime_text t) by (apply DT; reflexivity); repeat split; intros; try discriminate; tauto|]. assert (~ datetime_text t) by (rewrite <- DT; discriminate). clear DT.
  destruct (regex_match t datePattern); [assert (date_text t) by (apply DA; reflexivity); repeat split; intros; try discriminate; tauto|]. assert (~ date_text t) by (rewrite <- DA; discriminate). clear DA.
  destruct (regex_match t timePattern); [assert (time_text t) by (apply TI; reflexivity); repeat split; intros; try discriminate; tauto|]. assert (~ time_text t) by (rewrite <- TI; discriminate). clear TI.
  repeat split; intros; try discriminate; tauto.
Qed.
Print Assumptions C48_classify.

(** the kinds a column type asks for *)
Definition wants (t : ctype) (k : kind) : bool :=
  match t with
  | DATETIME => kind_eqb k KDateTime | DATE => kind_eqb k KDate | TIME => kind_eqb k KTime | BOOL => kind_eqb k KBool
  | INT => kind_eqb k KInt | REAL => kind_eqb k KInt || kind_eqb k KReal | STRING | MISSING => true
  end.
Definition fitting (t : ctype) (values : list str) : nat := length (filter (fun v => wants t (classify v)) values).
Lemma kind_eqb_sym : forall a b, kind_eqb a b = kind_eqb b a.
Proof. destruct a, b; reflexivity. Qed.
Lemma filter_or : forall A (f g : A -> bool) l, (forall x, f x && g x = false) -> length (filter (fun x => f x || g x) l) = length (filter f l) + length (filter g l).
Proof.
  intros A f g l H. induction l as [|x l IH]; [reflexivity|]. cbn [filter]. specialize (H x). destruct (f x), (g x); try discriminate H; cbn [orb length]; lia.
Qed.
Lemma fitting_count : forall values, fitting DATETIME values = count_kind KDateTime values /\ fitting DATE values = count_kind KDate values /\ fitting TIME values = count_kind KTime values /\
  fitting BOOL values = count_kind KBool values /\ fitting INT values = count_kind KInt values /\ fitting REAL values = count_kind KInt values + count_kind KReal values.
Proof.
  intros values. unfold fitting, count_kind. cbn [wants].
  repeat split; try (f_equal; apply filter_ext; intros; apply kind_eqb_sym).
  rewrite filter_or by (intros v; destruct (classify v); reflexivity). f_equal; f_equal; apply filter_ext; intros; apply kind_eqb_sym.
Qed.
(** a type other than String is inferred only if at least nine tenths of the non-missing fields fit it, and at least one does *)
Theorem C48_sound : forall values, InferColumnType values <> STRING ->
  9 * non_missing values <= 10 * fitting (InferColumnType values) values /\ 0 < non_missing values.
Proof.
  intros values. rewrite infer_nm. cbv zeta. destruct (fitting_count values) as (F1 & F2 & F3 & F4 & F5 & F6).
  destruct (Nat.eqb_spec (non_missing values) 0) as [|NZ]; [intros X; now destruct X|]. unfold ninety.
  repeat match goal with |- context [if ?b then _ else _] => let H := fresh in destruct b eqn:H; [apply Nat.leb_le in H; intros _; rewrite ?F1, ?F2, ?F3, ?F4, ?F5, ?F6; split; [exact H|apply Nat.neq_0_lt_0; exact NZ]|clear H] end. intros X; now destruct X.
Qed.
Print Assumptions C48_sound.
(** a column in which everything fits gets its type *)
Theorem C48_uniform : forall t values, t <> STRING -> t <> MISSING -> 0 < non_missing values ->
  (forall v, In v values -> missing_text (Trim v) \/ wants t (classify v) = true) ->
  (t = REAL -> 10 * fitting INT values < 9 * non_missing values) -> InferColumnType values = t.
Proof.
  intros t values N1 N2 HP HA HR. rewrite infer_nm. cbv zeta. destruct (fitting_count values) as (F1 & F2 & F3 & F4 & F5 & F6). rewrite <- F6, <- F1, <- F2, <- F3, <- F4, <- F5. unfold ninety.
  destruct (Nat.eqb_spec (non_missing values) 0) as [|NZ]; [lia|].
  assert (HA' : forall v, In v values -> classify v = KMissing \/ wants t (classify v) = true).
  { intros v HV. destruct (HA v HV) as [X|X]; [left|auto]. apply (C48_classify v). exact X. }
  assert (FT : fitting t values = non_missing values).
  { unfold fitting, non_missing. f_equal. apply filter_ext_in. intros v HV. destruct (HA' v HV) as [E|E]; rewrite E.
    - destruct t; try contradiction; reflexivity.
    - destruct t; try contradiction; destruct (classify v); try discriminate E; reflexivity. }
  assert (FZ : forall t', (forall k, k = KMissing \/ wants t k = true -> wants t' k = false) -> fitting t' values = 0).
  { intros t' HT. unfold fitting. apply length_zero_iff_nil. clear - HA' HT. induction values as [|v values IH]; [reflexivity|]. cbn [filter]. rewrite HT by (apply HA'; left; reflexivity). apply IH. intros; apply HA'; right; auto. }
  destruct t; try contradiction;
    repeat (match goal with |- (if 9 * _ <=? 10 * fitting ?t' _ then _ else _) = ?tt =>
      first [ constr_eq t' tt; rewrite FT; rewrite (proj2 (Nat.leb_le _ _)) by lia; reflexivity
            | rewrite (FZ t') by (intros k [->|K]; [reflexivity|destruct k; try discriminate K; reflexivity]); rewrite (proj2 (Nat.leb_gt _ _)) by lia
            | rewrite (proj2 (Nat.leb_gt _ _)) by (apply HR; reflexivity) ] end).
Qed.
Print Assumptions C48_uniform.
(** the order of the rows does not matter *)
Theorem C48_permutation : forall v v', Permutation v v' -> InferColumnType v = InferColumnType v'.
Proof.
  intros v v' HP. assert (F : forall p : str -> bool, length (filter p v) = length (filter p v')).
  { intros p. induction HP; cbn [filter]; try congruence; repeat match goal with |- context [if ?b then _ else _] => destruct b end; cbn [length]; congruence. }
  rewrite !infer_nm. unfold non_missing, count_kind. rewrite !F. reflexivity.
Qed.
Print Assumptions C48_permutation.

(** *** Integers are read back *)
Definition int_range (z : Z) : Prop := (- 2147483648 <= z <= 2147483647)%Z.
Lemma nz_uint : forall u, exists c s, L (NilZero.string_of_uint u) = c :: s /\ digits (c :: s) /\ digits_val 0 (c :: s) = Z.of_uint u.
Proof.
  intros u. rewrite of_uint_dval. assert (H : forall w, w <> Nil -> exists c s, L (NilEmpty.string_of_uint w) = c :: s) by (intros [] NE; try contradiction; cbn; eauto).
  destruct u; [exists "0"%char, []; repeat split; repeat constructor|..];
  (destruct (H _ ltac:(intros X; discriminate X)) as (c & s & E) || idtac);
  match goal with |- exists c s, L (NilZero.string_of_uint ?w) = _ /\ _ => destruct (H w) as (c & s & E); [discriminate|]; exists c, s; change (NilZero.string_of_uint w) with (NilEmpty.string_of_uint w); split; [exact E|]; rewrite <- E; split; [apply uint_digits|apply digits_val_uint] end.
Qed.
Lemma to_string_shape : forall z, exists sg ds, to_string z = sg ++ ds /\ (sg = [] /\ z = digits_val 0 ds \/ sg = ["-"%char] /\ z = Z.opp (digits_val 0 ds)) /\ digits ds /\ ds <> [].
Proof.
  intros z. unfold to_string. pose proof (of_to z) as E. destruct (Z.to_int z) as [u|u]; cbn [Z.of_int] in E; destruct (nz_uint u) as (c & s & E1 & E2 & E3); rewrite <- E3 in E.
  - exists [], (c :: s). split; [exact E1|]. split; [left; auto|]. split; [auto|discriminate].
  - exists ["-"%char], (c :: s). split; [cbn [NilZero.string_of_int L list_ascii_of_string app]; f_equal; exact E1|]. split; [right; auto|]. split; [auto|discriminate].
Qed.
Lemma trim_id : forall s, Forall (fun c => blank c = false) s -> Trim s = s.
Proof.
  assert (D : forall s, Forall (fun c => blank c = false) s -> drop_blank s = s) by (intros [|c s] H; [reflexivity|]; inversion H; subst; cbn; rewrite H2; reflexivity).
  intros s H. unfold Trim. rewrite (D s H). rewrite D by (apply Forall_rev; auto). apply rev_involutive.
Qed.
Lemma digit_not_blank : forall c, isdigit c = true -> blank c = false /\ isspace c = false /\ (c =? "-")%char = false /\ (c =? "+")%char = false.
Proof. intros [[] [] [] [] [] [] [] []]; vm_compute; intros; try discriminate; auto. Qed.
Lemma to_string_trim : forall z, Trim (to_string z) = to_string z.
Proof.
  intros z. destruct (to_string_shape z) as (sg & ds & -> & HS & HD & _). apply trim_id, Forall_app. split.
  - destruct HS as [[-> _]|[-> _]]; repeat constructor.
  - eapply Forall_impl; [|exact HD]. intros c H. apply digit_not_blank. exact H.
Qed.
Lemma to_string_int : forall z, int_text (Trim (to_string z)).
Proof.
  intros z. rewrite to_string_trim. destruct (to_string_shape z) as (sg & ds & -> & HS & HD & NE). exists sg, ds. split; [reflexivity|]. split; [|auto]. destruct HS as [[-> _]|[-> _]]; [left|right; left]; reflexivity.
Qed.
Lemma stoi_to_string : forall z, int_range z -> stoi (to_string z) = Some z.
Proof.
  intros z HR. destruct (to_string_shape z) as (sg & ds & -> & HS & HD & NE). destruct ds as [|c ds]; [contradiction|].
  inversion HD as [|? ? HC HD']; subst. destruct (digit_not_blank c HC) as (B1 & B2 & B3 & B4). unfold stoi. unfold int_range in HR.
  destruct HS as [[-> E]|[-> E]]; cbn [app drop_space]; [rewrite B2|change (isspace "-") with false; cbv iota].
  - rewrite B3, B4. cbn [starts_digit]. rewrite HC. rewrite <- E. destruct (Z.leb_spec (-2147483648) z); [|lia]. destruct (Z.leb_spec z 2147483647); [|lia]. reflexivity.
  - change (("-" =? "-")%char) with true. cbv iota. cbn [starts_digit]. rewrite HC. rewrite <- E. destruct (Z.leb_spec (-2147483648) z); [|lia]. destruct (Z.leb_spec z 2147483647); [|lia]. reflexivity.
Qed.

Section D.
Context {D : Type} (N : dnum D).
(** any column of decimal integers in the range of int is an integer column holding them *)
Theorem C48_integers : forall zs, zs <> [] -> Forall int_range zs ->
  InferColumnType (map to_string zs) = INT /\ map (fun v => ParseValue N v INT) (map to_string zs) = map (PInt (D := D)) zs.
Proof.
  intros zs NE HF. split.
  - apply C48_uniform; try discriminate.
    + unfold non_missing. destruct zs as [|z zs]; [contradiction|]. cbn [map filter]. rewrite (proj2 (proj1 (proj2 (C48_classify (to_string z))))) by apply to_string_int. cbn. lia.
    + intros v HV. apply in_map_iff in HV. destruct HV as (z & <- & _). right. rewrite (proj2 (proj1 (proj2 (C48_classify (to_string z))))) by apply to_string_int. reflexivity.
  - rewrite map_map. induction HF as [|z zs HZ HF IH]; [reflexivity|]. cbn [map]. f_equal.
    + unfold ParseValue. rewrite to_string_trim. destruct (IsMissingValue (to_string z)) eqn:EM.
      * exfalso. apply missing_iff in EM. rewrite <- to_string_trim in EM. apply (missing_no_digit _ EM). apply real_digit, int_real, to_string_int.
      * rewrite stoi_to_string by auto. reflexivity.
    + destruct zs; [reflexivity|]. apply IH. discriminate.
Qed.
End D.
Print Assumptions C48_integers.
Example C48_integers_computed : InferColumnType (map to_string [7; -12; 2147483647; -2147483648; 0]%Z) = INT /\ map to_string [7; -12; 0]%Z = map L ["7"; "-12"; "0"]%string /\
  InferColumnType (map L ["1.5"; " 2e3 "; "NA"; "-.5"; "7"]%string) = REAL /\ InferColumnType (map L ["2024-01-31"; ""; "2023/7/4"]%string) = DATE /\
  InferColumnType (map L ["12:30"; "7:05:59.25"]%string) = TIME /\ InferColumnType (map L ["2024-01-31T12:30"; "2024-01-31 12:30:59"]%string) = DATETIME /\
  InferColumnType (map L ["Yes"; "n"; "TRUE"]%string) = BOOL /\ InferColumnType (map L ["a"; "1"; "2"]%string) = STRING.
Proof. vm_compute. repeat split. Qed.

(** *** What the inference does not guarantee *)
(** *** How one cell of a column is read *)
Theorem C48_values : forall (D : Type) (N : dnum D) v, let t := Trim v in
  (forall k, ParseValue N v k = PMissing <-> missing_text t) /\
  (~ missing_text t ->
     (ParseValue N v BOOL = PBool true <-> In (map tolower t) (map L ["true"; "yes"; "t"; "y"; "1"]%string)) /\
     (ParseValue N v BOOL = PBool false <-> In (map tolower t) (map L ["false"; "no"; "f"; "n"; "0"]%string)) /\
     (bool_text t -> exists b, ParseValue N v BOOL = PBool b) /\
     (forall k, In k [STRING; DATE; TIME; DATETIME] -> ParseValue N v k = PStr t) /\
     ParseValue N v REAL = match d_stod N t with Some d => PReal d | None => PInvalid end).
Proof.
  intros D N v t. unfold ParseValue. fold t. clearbody t. pose proof (missing_iff t) as HM.
  split.
  - intros k. destruct (IsMissingValue t); [split; [intros _; apply HM; reflexivity|reflexivity]|].
    split; [|intros X; apply HM in X; discriminate]. destruct k; try discriminate.
    + destruct (d_stod N t); discriminate.
    + destruct (stoi t); discriminate.
    + cbv zeta. repeat match goal with |- context [if ?b then _ else _] => destruct b end; discriminate.
  - intros NM. destruct (IsMissingValue t) eqn:EM; [exfalso; apply NM, HM; reflexivity|]. cbv zeta.
    pose proof (existsb_streqb (map tolower t) (map L ["true"; "yes"; "t"; "y"; "1"]%string)) as B1.
    pose proof (existsb_streqb (map tolower t) (map L ["false"; "no"; "f"; "n"; "0"]%string)) as B2.
    assert (DJ : In (map tolower t) (map L ["true"; "yes"; "t"; "y"; "1"]%string) -> In (map tolower t) (map L ["false"; "no"; "f"; "n"; "0"]%string) -> False).
    { intros X Y. cbn in X, Y. destruct X as [X|[X|[X|[X|[X|[]]]]]], Y as [Y|[Y|[Y|[Y|[Y|[]]]]]]; rewrite <- X in Y; discriminate. }
    split; [|split; [|split; [|split]]].
    + destruct (existsb (streqb (map tolower t)) (map L ["true"; "yes"; "t"; "y"; "1"]%string)); [split; [intros _; apply B1; reflexivity|reflexivity]|].
      split; [|intros X; apply B1 in X; discriminate]. destruct (existsb _ _); discriminate.
    + destruct (existsb (streqb (map tolower t)) (map L ["true"; "yes"; "t"; "y"; "1"]%string)).
      * split; [discriminate|]. intros X. exfalso. apply DJ; auto. apply B1. reflexivity.
      * destruct (existsb _ _); [split; [intros _; apply B2; reflexivity|reflexivity]|]. split; [discriminate|]. intros X. apply B2 in X. discriminate.
    + intros HB. destruct (existsb (streqb (map tolower t)) (map L ["true"; "yes"; "t"; "y"; "1"]%string)); [eexists; reflexivity|].
      destruct (existsb (streqb (map tolower t)) (map L ["false"; "no"; "f"; "n"; "0"]%string)); [eexists; reflexivity|]. exfalso. unfold bool_text in HB.
      assert (HB' : In (map tolower t) (map L ["true"; "yes"; "t"; "y"; "1"]%string) \/ In (map tolower t) (map L ["false"; "no"; "f"; "n"; "0"]%string)) by (cbn in HB |- *; tauto).
      destruct HB' as [X|X]; [apply B1 in X|apply B2 in X]; discriminate.
    + intros k HK. cbn in HK. destruct HK as [<-|[<-|[<-|[<-|[]]]]]; reflexivity.
    + reflexivity.
Qed.
Print Assumptions C48_values.
(** A field that does not fit the inferred type need not come out as missing: in an integer column "3.7" is read as 3 *)
Definition Zdnum : dnum Z := mkDnum Z 0%Z (-1)%Z (fun _ => None) to_string (fun z => z).
Theorem C48_truncation_refuted : let values := map to_string [1; 2; 3; 4; 5; 6; 7; 8; 9]%Z ++ [L "3.7"] in
  InferColumnType values = INT /\ ~ int_text (Trim (L "3.7")) /\ ParseValue Zdnum (L "3.7") INT = PInt 3%Z /\ ParseValue Zdnum (L "12abc") INT = PInt 12%Z.
Proof.
  cbv zeta. split; [vm_compute; reflexivity|]. split; [|split; vm_compute; reflexivity]. rewrite <- int_pattern, <- C48_regex. vm_compute. discriminate.
Qed.
(** integers outside the range of int make an integer column in which they are missing *)
Theorem C48_range_refuted : InferColumnType [L "12345678901"] = INT /\ ParseValue Zdnum (L "12345678901") INT = PInvalid.
Proof. vm_compute. split; reflexivity. Qed.

Example C48_values_ex : map (fun v => ParseValue Zdnum (L v) BOOL) [" Y"; "N "; "tRue"; "0"; "NA"; "maybe"]%string =
  [PBool true; PBool false; PBool true; PBool false; PMissing; PInvalid].
Proof. vm_compute. reflexivity. Qed.

(** ** C24 on a concrete table *)
Definition NL : string := String "010" EmptyString.
Definition exCSV : str := L ("id, name ,ok,when" ++ NL ++ "1,""a,b"",yes,2024-01-31T12:30" ++ NL ++ "   " ++ NL ++ "-2,""say """"hi"""""",no" ++ NL ++ "NA,x,?,2024-02-01 8:05").
Example C24_records : records "," exCSV = [map L ["id"; " name "; "ok"; "when"]; map L ["1"; "a,b"; "yes"; "2024-01-31T12:30"]; map L ["-2"; "say ""hi"""; "no"]; map L ["NA"; "x"; "?"; "2024-02-01 8:05"]]%string.
Proof. vm_compute. reflexivity. Qed.
Example C24_computed :
  match LoadFromCSVString Zdnum exCSV "," true with
  | Ok ds => ds_rows ds = 3 /\ map c_name (ds_cols ds) = map L ["id"; "name"; "ok"; "when"]%string /\ map c_type (ds_cols ds) = [INT; STRING; BOOL; DATETIME] /\
             map c_int (ds_cols ds) = [[1; -2; 0]%Z; []; []; []] /\ map c_mask (ds_cols ds) = [[false; false; true]; [false; false; false]; [false; false; true]; [false; true; false]] /\
             map c_date (ds_cols ds) = [[]; []; []; map L ["2024-01-31"; ""; "2024-02-01"]%string]
  | _ => False
  end /\ LoadCSV Zdnum (L "f") exCSV true "," true true false = Throw DataErr /\
  match LoadCSV Zdnum (L "f") exCSV true "," true false true with Ok (_, w) => w = [(3, 3)] | _ => False end /\
  records "," (write_csv "," [map L ["a"; "b"]; map L [" 1 "; "say ""hi"","]]%string) = [map L ["a"; "b"]; map L [" 1 "; "say ""hi"","]]%string.
Proof. vm_compute. repeat split. Qed.
Print Assumptions C24_string.
Print Assumptions C24_string_empty.
Print Assumptions C24_file.
Print Assumptions C24_file_empty.
Print Assumptions C24_agree.
Print Assumptions C24_write_read.
