(** * C25: JSON loading keeps rows aligned *)

From Coq Require Import Ascii String List Bool Arith ZArith Lia.
From Verif Require Import Base Data_Model Data_Text Data_Proofs Data_CSV Data_Infer Data_Ops Json_Model Json_Spec.
Import ListNotations.
Local Open Scope nat_scope.
Local Open Scope list_scope.
Local Open Scope char_scope.

(** ** Lexing *)
Lemma skip_ws_app : forall w s, ws w -> skip_ws (w ++ s) = skip_ws s.
Proof. intros w s H. induction H as [|c w HC _ IH]; [reflexivity|]. cbn [app skip_ws]. rewrite HC. exact IH. Qed.
Lemma skip_ws_length : forall s, length (skip_ws s) <= length s.
Proof. induction s as [|c s IH]; cbn [skip_ws length]; [lia|]. destruct (isspace c); cbn [length]; lia. Qed.
Definition tok (c : ascii) : Prop := isspace c = false.
Lemma skip_ws_tok : forall c s, tok c -> skip_ws (c :: s) = c :: s.
Proof. intros c s H. cbn [skip_ws]. rewrite H. reflexivity. Qed.
Lemma peek_tok : forall w c s, ws w -> tok c -> peek (w ++ c :: s) = c.
Proof. intros. unfold peek. rewrite skip_ws_app, skip_ws_tok by auto. reflexivity. Qed.
Lemma getc_tok : forall w c s, ws w -> tok c -> getc (w ++ c :: s) = (c, s).
Proof. intros. unfold getc. rewrite skip_ws_app, skip_ws_tok by auto. reflexivity. Qed.
Lemma ws_nil : ws []. Proof. constructor. Qed.
#[local] Hint Resolve ws_nil : core.
Lemma ws_app : forall a b, ws a -> ws b -> ws (a ++ b). Proof. intros. apply Forall_app. auto. Qed.

Lemma string_body_ok : forall v b, body_text v b -> forall acc rest, string_body acc (b ++ """" :: rest) = Ok (acc ++ v, rest).
Proof.
  intros v b H. induction H as [|c v t N1 N2 _ IH|e c v t HE _ IH]; intros acc rest; cbn [app string_body].
  - cbn. rewrite app_nil_r. reflexivity.
  - apply Ascii.eqb_neq in N1, N2. rewrite N1, N2, IH, <- app_assoc. reflexivity.
  - change ("\" =? """") with false. change ("\" =? "\") with true. cbv iota. rewrite IH, <- app_assoc.
    assert (unescape e = c) as -> by (cbn [In] in HE; destruct HE as [E|[E|[E|[E|[E|[E|[]]]]]]]; injection E as <- <-; reflexivity). reflexivity.
Qed.
Lemma parse_string_ok : forall w v t rest, ws w -> string_text v t -> parse_string (w ++ t ++ rest) = Ok (v, rest).
Proof.
  intros w v t rest HW (b & -> & HB). unfold parse_string. cbn [app]. rewrite getc_tok by (auto; reflexivity). change ("""" =? """") with true. cbv iota.
  rewrite <- app_assoc. cbn [app]. rewrite (string_body_ok v b HB). reflexivity.
Qed.
Lemma digit_not_space : forall c, isdigit c = true -> isspace c = false.
Proof. intros c H. destruct c as [[] [] [] [] [] [] [] []]; vm_compute in H |- *; congruence. Qed.
Lemma digit_num : forall c, isdigit c = true -> num_char c = true.
Proof. intros c H. unfold num_char. rewrite H. reflexivity. Qed.
Lemma num_token : forall t, number_text t -> exists c t', t = c :: t' /\ (c = "-" \/ isdigit c = true) /\ Forall (fun c => num_char c = true) t.
Proof.
  assert (HD : forall d, digits d -> Forall (fun c => num_char c = true) d) by (intros d [_ H]; eapply Forall_impl; [|exact H]; exact digit_num).
  intros t (s & i & f & e & -> & HS & HI & HF & HE).
  assert (A : Forall (fun c => num_char c = true) (s ++ i ++ f ++ e)).
  { apply Forall_app. split; [destruct HS as [->| ->]; auto|]. apply Forall_app. split; [auto|]. apply Forall_app. split.
    - destruct HF as [->|(d & -> & H)]; auto.
    - destruct HE as [->|(x & s' & d & -> & HX & HS' & H)]; auto. constructor; [destruct HX as [->| ->]; reflexivity|]. apply Forall_app. split; [|auto]. destruct HS' as [->|[->| ->]]; auto. }
  destruct HS as [->| ->].
  - destruct i as [|c i]; [destruct HI as [X _]; now destruct X|]. exists c, (i ++ f ++ e). split; [reflexivity|]. split; [|exact A]. right. destruct HI as [_ HI]. inversion HI; auto.
  - exists "-", (i ++ f ++ e). auto.
Qed.
Definition nonnum (s : str) : Prop := match s with c :: _ => num_char c = false | [] => True end.
Lemma take_num_ok : forall t acc rest, Forall (fun c => num_char c = true) t -> nonnum rest -> take_num acc (t ++ rest) = (acc ++ t, rest).
Proof.
  induction t as [|c t IH]; intros acc rest H HN; cbn [app take_num].
  - rewrite app_nil_r. destruct rest as [|c rest]; [reflexivity|]. cbn [take_num]. cbn in HN. rewrite HN. reflexivity.
  - inversion H; subst. rewrite H2, IH by auto. rewrite <- app_assoc. reflexivity.
Qed.
Lemma parse_value_ok : forall w v t rest, ws w -> value_text v t -> nonnum rest -> parse_value (w ++ t ++ rest) = Ok (cell v, rest).
Proof.
  intros w v t rest HW HV HN. destruct v as [v|n|b|]; cbn [value_text cell] in *.
  - unfold parse_value. pose proof (parse_string_ok w v t rest HW HV) as HP. destruct HV as (b & -> & HB). cbn [app]. rewrite peek_tok by (auto; reflexivity). exact HP.
  - destruct HV as [-> HV]. apply num_token in HV. destruct HV as (c & t' & -> & HC & HF). unfold parse_value. cbn [app].
    assert (HT : tok c) by (destruct HC as [->|HC]; [reflexivity|apply digit_not_space; auto]).
    rewrite peek_tok by auto. assert (E : parse_number (w ++ c :: t' ++ rest) = (c :: t', rest)).
    { unfold parse_number. rewrite skip_ws_app, skip_ws_tok by auto. destruct (c =? "-") eqn:EM.
      - inversion HF; subst. rewrite take_num_ok by auto. reflexivity.
      - change (c :: t' ++ rest) with ((c :: t') ++ rest). rewrite take_num_ok by auto. reflexivity. }
    rewrite E. assert (G : forall a, num_char a = false -> (c =? a) = false) by (intros a HA; apply Ascii.eqb_neq; intros ->; inversion HF; congruence).
    inversion HF as [|? ? HCN]; subst. rewrite !G by reflexivity. cbn [orb].
    destruct HC as [->|HC]; [reflexivity|]. rewrite HC, orb_true_r. reflexivity.
  - subst t. unfold parse_value. destruct b; cbn [L list_ascii_of_string app]; rewrite peek_tok by (auto; reflexivity); cbn [orb Ascii.eqb Bool.eqb andb]; unfold parse_bool; rewrite skip_ws_app, skip_ws_tok by (auto; reflexivity); reflexivity.
  - subst t. unfold parse_value. cbn [L list_ascii_of_string app]; rewrite peek_tok by (auto; reflexivity). cbn [orb Ascii.eqb Bool.eqb andb]. unfold parse_null. rewrite skip_ws_app, skip_ws_tok by (auto; reflexivity). reflexivity.
Qed.
Lemma space_nonnum : forall c, isspace c = true -> num_char c = false.
Proof. intros c H. destruct c as [[] [] [] [] [] [] [] []]; vm_compute in H |- *; congruence. Qed.
Lemma ws_nonnum : forall w s, ws w -> nonnum s -> nonnum (w ++ s).
Proof. intros w s HW HS. destruct HW; [exact HS|]. cbn. apply space_nonnum. auto. Qed.

(** ** Objects *)
Definition push_all (cols : cols_t) (o : jobj) : cols_t := fold_left (fun c p => push_value c (fst p) (cell (snd p))) o cols.
Lemma pair_step : forall w p t rest, ws w -> pair_text p t -> nonnum rest ->
  exists s1 s2, parse_string (w ++ t ++ rest) = Ok (fst p, s1) /\ getc s1 = (":", s2) /\ parse_value s2 = Ok (cell (snd p), rest).
Proof.
  intros w p t rest HW (tk & w1 & w2 & tv & -> & HK & H1 & H2 & HV) HN. rewrite <- app_assoc. eexists. eexists. split; [apply parse_string_ok; eauto|].
  rewrite <- app_assoc. cbn [app]. split; [apply getc_tok; auto; reflexivity|]. rewrite <- app_assoc. apply parse_value_ok; auto.
Qed.
Lemma more_nonnum : forall A item (l : list A) r rest, more_text item l r -> nonnum rest -> nonnum (r ++ rest).
Proof. intros A item l r rest H HN. destruct H; [apply ws_nonnum; auto|]. rewrite <- app_assoc. apply ws_nonnum; auto. reflexivity. Qed.
Lemma pair_head : forall p t, pair_text p t -> exists t', t = """" :: t'.
Proof. intros p t (tk & w1 & w2 & tv & -> & (b & -> & _) & _). cbn [app]. eauto. Qed.
Lemma parse_more_pairs : forall o r, more_text pair_text o r -> forall fuel cols rest, length o < fuel ->
  exists w, ws w /\ parse_pairs fuel cols (r ++ "}" :: rest) = Ok (push_all cols o, w ++ "}" :: rest).
Proof.
  intros o r H. induction H as [w HW|w w' p t o r HW HW' HP HM IH]; intros fuel cols rest HF; (destruct fuel as [|fuel]; [cbn in HF; lia|]); cbn [parse_pairs].
  - rewrite peek_tok by (auto; reflexivity). exists w. split; [auto|reflexivity].
  - rewrite <- app_assoc. cbn [app]. rewrite peek_tok by (auto; reflexivity). cbn [Ascii.eqb Bool.eqb]. rewrite getc_tok by (auto; reflexivity). cbn [snd].
    replace ((w' ++ t ++ r) ++ "}" :: rest) with (w' ++ t ++ (r ++ "}" :: rest)) by (rewrite <- !app_assoc; reflexivity).
    destruct (pair_step w' p t (r ++ "}" :: rest) HW' HP) as (s1 & s2 & E1 & E2 & E3); [eapply more_nonnum; eauto; reflexivity|].
    rewrite E1. cbn [bind]. rewrite E2. change (":" =? ":") with true. cbv iota. rewrite E3. cbn [bind]. cbn [length] in HF. apply IH. lia.
Qed.
Lemma parse_pairs_ok : forall o b, items_text pair_text o b -> forall fuel cols rest, length o < fuel ->
  exists w, ws w /\ parse_pairs fuel cols (b ++ "}" :: rest) = Ok (push_all cols o, w ++ "}" :: rest).
Proof.
  intros o b [w HW|w p t o' r HW HP HM] fuel cols rest HF; (destruct fuel as [|fuel]; [cbn in HF; lia|]).
  - cbn [parse_pairs]. rewrite peek_tok by (auto; reflexivity). exists w. split; [auto|reflexivity].
  - replace ((w ++ t ++ r) ++ "}" :: rest) with (w ++ t ++ (r ++ "}" :: rest)) by (rewrite <- !app_assoc; reflexivity).
    destruct (pair_step w p t (r ++ "}" :: rest) HW HP) as (s1 & s2 & E1 & E2 & E3); [eapply more_nonnum; eauto; reflexivity|].
    destruct (pair_head p t HP) as [t' ET]. cbn [parse_pairs].
    assert (PK : peek (w ++ t ++ r ++ "}" :: rest) = """") by (rewrite ET; cbn [app]; apply peek_tok; auto; reflexivity). rewrite PK. cbn [Ascii.eqb Bool.eqb].
    rewrite E1. cbn [bind]. rewrite E2. change (":" =? ":") with true. cbv iota. rewrite E3. cbn [bind]. cbn [length] in HF. destruct (parse_more_pairs o' r HM fuel (push_value cols (fst p) (cell (snd p))) rest) as (w1 & HW1 & E); [lia|].
    exists w1. split; [exact HW1|]. exact E.
Qed.
Definition add_object (cols : cols_t) (o : jobj) : cols_t := pad (push_all cols o).
Definition size (objs : list jobj) : nat := length objs + list_sum (map (@length _) objs).
Lemma object_step : forall o t fuel cols rest, object_text o t -> length o < fuel ->
  exists s1 s2, t ++ rest = "{" :: s1 /\ parse_pairs fuel cols s1 = Ok (push_all cols o, s2) /\ getc s2 = ("}", rest).
Proof.
  intros o t fuel cols rest (b & -> & HB) HF. destruct (parse_pairs_ok o b HB fuel cols rest HF) as (w & HW & E). exists (b ++ "}" :: rest), (w ++ "}" :: rest).
  split; [cbn [app]; rewrite <- app_assoc; reflexivity|]. split; [exact E|]. apply getc_tok; auto. reflexivity.
Qed.
Lemma parse_more_objects : forall objs r, more_text object_text objs r -> forall fuel cols rest, size objs < fuel ->
  exists w, ws w /\ parse_objects fuel cols (r ++ "]" :: rest) = Ok (fold_left add_object objs cols, w ++ "]" :: rest).
Proof.
  intros objs r H. induction H as [w HW|w w' o t objs r HW HW' HO HM IH]; intros fuel cols rest HF; (destruct fuel as [|fuel]; [cbn in HF; lia|]); cbn [parse_objects].
  - rewrite peek_tok by (auto; reflexivity). exists w. split; [auto|reflexivity].
  - rewrite <- app_assoc. cbn [app]. rewrite peek_tok by (auto; reflexivity). cbn [Ascii.eqb Bool.eqb]. rewrite getc_tok by (auto; reflexivity). cbn [snd].
    replace ((w' ++ t ++ r) ++ "]" :: rest) with (w' ++ t ++ (r ++ "]" :: rest)) by (rewrite <- !app_assoc; reflexivity).
    unfold size in HF. cbn [length map list_sum fold_right] in HF. fold (list_sum (map (@length (str * jval)) objs)) in HF.
    destruct (object_step o t (S fuel) cols (r ++ "]" :: rest) HO) as (s1 & s2 & E1 & E2 & E3); [lia|]. rewrite E1, getc_tok by (auto; reflexivity). change ("{" =? "{") with true. cbv iota.
    rewrite E2. cbn [bind]. rewrite E3. change ("}" =? "}") with true. cbv iota. apply IH. unfold size. lia.
Qed.
Lemma parse_objects_ok : forall objs b, items_text object_text objs b -> forall fuel cols rest, size objs < fuel ->
  exists w, ws w /\ parse_objects fuel cols (b ++ "]" :: rest) = Ok (fold_left add_object objs cols, w ++ "]" :: rest).
Proof.
  intros objs b [w HW|w o t objs' r HW HO HM] fuel cols rest HF; (destruct fuel as [|fuel]; [cbn in HF; lia|]); cbn [parse_objects].
  - rewrite peek_tok by (auto; reflexivity). exists w. split; [auto|reflexivity].
  - replace ((w ++ t ++ r) ++ "]" :: rest) with (w ++ t ++ (r ++ "]" :: rest)) by (rewrite <- !app_assoc; reflexivity).
    unfold size in HF. cbn [length map list_sum fold_right] in HF. fold (list_sum (map (@length (str * jval)) objs')) in HF.
    destruct (object_step o t (S fuel) cols (r ++ "]" :: rest) HO) as (s1 & s2 & E1 & E2 & E3); [lia|]. rewrite E1. rewrite peek_tok by (auto; reflexivity). cbn [Ascii.eqb Bool.eqb].
    rewrite getc_tok by (auto; reflexivity). change ("{" =? "{") with true. cbv iota.
    rewrite E2. cbn [bind]. rewrite E3. change ("}" =? "}") with true. cbv iota.
    destruct (parse_more_objects objs' r HM fuel (pad (push_all cols o)) rest) as (w1 & HW1 & E); [unfold size; lia|]. exists w1. split; [exact HW1|]. exact E.
Qed.

(** ** The columns of a table *)
Lemma push_value_map : forall K (f : str -> list str) key v, NoDup K -> In key K ->
  push_value (map (fun k => (k, f k)) K) key v = map (fun k => (k, f k ++ if list_eq_dec ascii_dec key k then [v] else [])) K.
Proof.
  induction K as [|k K IH]; intros f key v ND HI; [destruct HI|]. inversion ND; subst. cbn [map push_value]. destruct (streqb k key) eqn:E.
  - apply streqb_eq in E. subst k. destruct (list_eq_dec ascii_dec key key) as [_|X]; [|now destruct X]. f_equal. apply map_ext_in. intros k HK. destruct (list_eq_dec ascii_dec key k) as [->|]; [contradiction|]. rewrite app_nil_r. reflexivity.
  - apply streqb_neq in E. destruct (list_eq_dec ascii_dec key k) as [->|_]; [now destruct E|]. rewrite app_nil_r. f_equal. apply IH; auto. destruct HI; [contradiction|auto].
Qed.
Lemma push_all_map : forall o K (f : str -> list str), NoDup K -> NoDup (keys o) -> incl (keys o) K ->
  push_all (map (fun k => (k, f k)) K) o = map (fun k => (k, f k ++ match lookup k o with Some v => [cell v] | None => [] end)) K.
Proof.
  induction o as [|[key v] o IH]; intros K f ND NO HI.
  - cbn. apply map_ext. intros k. rewrite app_nil_r. reflexivity.
  - cbn [keys map fst] in NO, HI. inversion NO; subst. unfold push_all. cbn [fold_left fst snd]. rewrite push_value_map by (auto; apply HI; left; reflexivity).
    fold (push_all (map (fun k => (k, f k ++ (if list_eq_dec ascii_dec key k then [cell v] else []))) K) o).
    rewrite (IH K (fun k => f k ++ if list_eq_dec ascii_dec key k then [cell v] else [])); auto; [|intros x HX; apply HI; right; auto].
    apply map_ext. intros k. cbn [lookup]. rewrite <- app_assoc. do 2 f_equal. destruct (list_eq_dec ascii_dec key k) as [->|]; [|reflexivity].
    replace (lookup k o) with (@None jval); [reflexivity|]. clear - H1. induction o as [|[k' v'] o IH]; [reflexivity|]. cbn [lookup]. destruct (list_eq_dec ascii_dec k' k) as [->|]; [exfalso; apply H1; left; reflexivity|]. apply IH. intros X. apply H1. right. auto.
Qed.
Lemma push_value_new : forall cols key v, ~ In key (map fst cols) -> push_value cols key v = cols ++ [(key, [v])].
Proof.
  induction cols as [|[k vs] cols IH]; intros key v H; [reflexivity|]. cbn [push_value app]. cbn [map fst] in H.
  assert (E : streqb k key = false) by (apply streqb_neq; intros ->; apply H; left; reflexivity). rewrite E, IH; auto. intros X. apply H. right. auto.
Qed.
Lemma push_all_new : forall o cols, NoDup (map fst cols ++ keys o) -> push_all cols o = cols ++ map (fun p => (fst p, [cell (snd p)])) o.
Proof.
  induction o as [|[key v] o IH]; intros cols ND; [cbn; rewrite app_nil_r; reflexivity|]. unfold push_all. cbn [fold_left fst snd].
  cbn [keys map fst] in ND. rewrite push_value_new; [|intros X; apply NoDup_remove_2 in ND; apply ND, in_or_app; auto].
  fold (push_all (cols ++ [(key, [cell v])]) o). rewrite IH; [rewrite <- app_assoc; reflexivity|]. rewrite map_app. cbn [map fst]. rewrite <- app_assoc. exact ND.
Qed.
Lemma max_rows_spec : forall (cols : cols_t) m, fold_left (fun m c => Nat.max m (length (snd c))) cols m = Nat.max m (max_rows cols).
Proof. intros cols. induction cols as [|c cols IH]; intros m; unfold max_rows; cbn [fold_left]; [lia|]. rewrite IH, (IH (Nat.max 0 _)). lia. Qed.
Lemma max_rows_ge : forall (cols : cols_t) c, In c cols -> length (snd c) <= max_rows cols.
Proof.
  induction cols as [|c cols IH]; intros c' H; [destruct H|]. unfold max_rows. cbn [fold_left]. rewrite max_rows_spec. destruct H as [<-|H]; [lia|]. apply IH in H. lia.
Qed.
Lemma max_rows_le : forall (cols : cols_t) m, (forall c, In c cols -> length (snd c) <= m) -> max_rows cols <= m.
Proof.
  induction cols as [|c cols IH]; intros m H; [unfold max_rows; cbn; lia|]. unfold max_rows. cbn [fold_left]. rewrite max_rows_spec. pose proof (H c (or_introl eq_refl)). specialize (IH m (fun c0 X => H c0 (or_intror X))). lia.
Qed.
Definition table_cols (K : list str) (objs : list jobj) : cols_t := map (fun k => (k, map (cell_of k) objs)) K.
Lemma lookup_keys : forall k o, In k (keys o) <-> exists v, lookup k o = Some v.
Proof.
  intros k. induction o as [|[k' v] o IH]; cbn [keys map fst lookup]; [split; [intros []|intros [v X]; discriminate]|]. destruct (list_eq_dec ascii_dec k' k) as [->|NE].
  - split; [eauto|intros _; left; reflexivity].
  - rewrite <- IH. split; [intros [X|X]; [contradiction|auto]|intros X; right; auto].
Qed.
Lemma lookup_first : forall o k v pre post, o = pre ++ (k, v) :: post -> NoDup (keys o) -> lookup k o = Some v.
Proof.
  intros o k v pre post -> ND. induction pre as [|[k' v'] pre IH]; cbn [app lookup].
  - destruct (list_eq_dec ascii_dec k k) as [_|X]; [reflexivity|now destruct X].
  - cbn [app keys map fst] in ND. inversion ND; subst. destruct (list_eq_dec ascii_dec k' k) as [->|]; [|auto]. exfalso. apply H1. unfold keys. rewrite map_app. apply in_or_app. right. left. reflexivity.
Qed.
Lemma add_first : forall o, o <> [] -> NoDup (keys o) -> add_object [] o = table_cols (keys o) [o].
Proof.
  intros o NE ND. unfold add_object. rewrite push_all_new by exact ND. cbn [app]. unfold pad, table_cols.
  assert (E : max_rows (map (fun p => (fst p, [cell (snd p)])) o) = 1).
  { apply Nat.le_antisymm; [apply max_rows_le; intros c HC; apply in_map_iff in HC; destruct HC as (p & <- & _); cbn; lia|].
    destruct o as [|p o]; [now destruct NE|]. exact (max_rows_ge (map (fun p => (fst p, [cell (snd p)])) (p :: o)) (fst p, [cell (snd p)]) (or_introl eq_refl)). }
  rewrite E. unfold keys. rewrite !map_map. apply map_ext_in. intros [k v] HP. cbn [fst snd length Nat.sub repeat map app]. unfold cell_of. apply in_split in HP. destruct HP as (pre & post & HP). rewrite (lookup_first o k v pre post HP ND). reflexivity.
Qed.
Lemma add_next : forall K objs o, NoDup K -> o <> [] -> NoDup (keys o) -> incl (keys o) K -> add_object (table_cols K objs) o = table_cols K (objs ++ [o]).
Proof.
  intros K objs o NK NE ND HI. unfold add_object, table_cols. rewrite push_all_map by auto. unfold pad.
  match goal with |- context [max_rows ?c] => assert (E : max_rows c = S (length objs)) end.
  { apply Nat.le_antisymm.
    - apply max_rows_le. intros c HC. apply in_map_iff in HC. destruct HC as (k & <- & _). cbn [snd]. rewrite app_length, map_length. destruct (lookup k o); cbn [length]; lia.
    - destruct o as [|[k v] o']; [now destruct NE|]. set (o := (k, v) :: o') in *. assert (HK : In k (keys o)) by (left; reflexivity). pose proof HK as HL. apply lookup_keys in HL. destruct HL as [v' HL].
      pose proof (in_map (fun k => (k, map (cell_of k) objs ++ match lookup k o with Some v => [cell v] | None => [] end)) K k (HI k HK)) as HC. apply max_rows_ge in HC. cbn [snd] in HC. rewrite app_length, map_length, HL in HC. cbn [length] in HC. lia. }
  rewrite E, map_map. apply map_ext. intros k. f_equal. rewrite <- app_assoc, map_app. f_equal. cbn [map]. unfold cell_of. rewrite app_length, map_length. destruct (lookup k o); cbn [length].
  - replace (S (length objs) - (length objs + 1)) with 0 by lia. reflexivity.
  - replace (S (length objs) - (length objs + 0)) with 1 by lia. reflexivity.
Qed.
Lemma table_fold : forall objs, table objs -> fold_left add_object objs [] = table_cols (keys (hd [] objs)) objs.
Proof.
  intros objs H. destruct objs as [|o objs]; [reflexivity|]. unfold table in H. cbn [hd] in *. inversion H as [|? ? (H1 & H2 & _) HR]; subst. cbn [fold_left]. rewrite add_first by auto.
  clear H. assert (G : forall objs, Forall (fun o0 => o0 <> [] /\ NoDup (keys o0) /\ incl (keys o0) (keys o)) objs -> forall done, fold_left add_object objs (table_cols (keys o) done) = table_cols (keys o) (done ++ objs)).
  { clear objs HR. induction objs as [|o' objs IH]; intros HR done; [rewrite app_nil_r; reflexivity|].
    inversion HR as [|? ? (A1 & A2 & A3) HR']; subst. cbn [fold_left]. rewrite add_next by auto. rewrite IH by auto. rewrite <- app_assoc. reflexivity. }
  exact (G objs HR [o]).
Qed.

(** ** Building the columns *)
Section D.
Context {D : Type} (N : dnum D).
Notation column := (@column D).
Notation dataset := (@dataset D).
Definition strip (c : column) : column :=
  match c_type c with
  | DATE | TIME => mkCol (c_name c) (c_type c) (c_real c) (c_int c) (c_bool c) [] (c_date c) (c_time c) (c_mask c)
  | _ => c
  end.
Lemma set_cell_strip : forall n c i v c', set_cell N n c i v = Ok c' -> set_cell N n (strip c) i v = Ok (strip c').
Proof.
  intros n [nm t cr ci cb cs cd ct cm] i v c'. unfold strip, set_cell. cbn [c_type]. destruct t; cbn [c_name c_type c_real c_int c_bool c_string c_date c_time c_mask];
    destruct (vset cm i _) as [m| | |]; cbn [bind]; try discriminate.
  1-4,8: match goal with |- context [vset ?l ?j ?x] => destruct (vset l j x); cbn [bind]; intros H; try discriminate; injection H as <-; reflexivity end.
  1-2: match goal with |- context [vset ?l ?j ?x] => destruct (vset l j x); cbn [bind]; intros H; try discriminate; injection H as <-; reflexivity end.
  destruct (is_empty _); [intros H; injection H as <-; reflexivity|]. match goal with |- (let '(_, _) := ?p in _) = _ -> _ => destruct p as [a b] end.
  destruct (vset cd i a); cbn [bind]; try discriminate. destruct (vset ct i b); cbn [bind]; try discriminate. intros H; injection H as <-. reflexivity.
Qed.
Lemma json_column_ok : forall nm values, json_column N (length values) nm values = Ok (strip (full_col N nm (InferColumnType values) values)).
Proof.
  intros nm values. unfold json_column. set (t := InferColumnType values). clearbody t.
  assert (E : json_alloc N nm t (length values) (length values) = strip (part_col N nm t values 0)) by (rewrite <- alloc_part; destruct t; reflexivity).
  cbv zeta. rewrite E.
  assert (W : wp (for_range 0 (length values) (fun col i => v <- vget values i ;; set_cell N (length values) col i v) (strip (part_col N nm t values 0))) (fun c => c = strip (part_col N nm t values (length values)))).
  { apply (for_range_inv _ _ (fun k c => c = strip (part_col N nm t values k))); [lia|reflexivity|]. intros k c _ HK ->. destruct (nth_error_lt _ _ _ HK) as [v HV]. assert (X : vget values k = Ok v) by (apply vget_Ok; auto). rewrite X. cbn [bind].
    rewrite (set_cell_strip _ _ _ _ _ (set_cell_part N nm t values k v HV)). rewrite Nat.add_1_r. reflexivity. }
  apply wp_elim in W. destruct W as (c & EC & ->). exact EC.
Qed.
Lemma strip_facts : forall c, c_name (strip c) = c_name c /\ c_type (strip c) = c_type c /\ c_mask (strip c) = c_mask c /\ c_time (strip c) = c_time c /\ col_size (strip c) = col_size c /\
  (forall i, col_missing (strip c) i = col_missing c i) /\ (forall i, col_get_real N (strip c) i = col_get_real N c i) /\ (forall i, col_string N (strip c) i = col_string N c i) /\ c_int (strip c) = c_int c /\ c_bool (strip c) = c_bool c.
Proof. intros [nm t cr ci cb cs cd ct cm]. unfold strip. cbn [c_type]. destruct t; repeat split. Qed.
Lemma strip_shows : forall c r s, shows N c r s -> shows N (strip c) r s.
Proof.
  intros c r s. destruct (strip_facts c) as (E1 & E2 & E3 & E4 & E5 & E6 & E7 & E8 & E9 & E10). unfold shows. rewrite E2. destruct (ParseValue N s (c_type c)); rewrite ?E6, ?E7, ?E8, ?E9, ?E10; auto.
Qed.
(** the dataset built from columns of the same length *)
Definition json_ds (fname : str) (n : nat) (cols : cols_t) : dataset := mkData fname (map (fun c => strip (full_col N (fst c) (InferColumnType (snd c)) (snd c))) cols) n.
Lemma json_ds_facts : forall fname n cols, Forall (fun c => length (snd c) = n) cols ->
  rectangular (json_ds fname n cols) /\ ds_rows (json_ds fname n cols) = n /\ ds_names (json_ds fname n cols) = map fst cols.
Proof.
  intros fname n cols H. split; [|split; [reflexivity|]].
  - unfold rectangular, json_ds. cbn [ds_cols ds_rows]. apply Forall_map. eapply Forall_impl; [|exact H]. intros [k vs] HL. cbn [fst snd] in *. pose proof (full_shape N k (InferColumnType vs) vs) as (A & B & C & E & F).
    destruct (strip_facts (full_col N k (InferColumnType vs) vs)) as (S1 & S2 & S3 & S4 & S5 & _). rewrite S2, S3, S4, S5, B, C, E. split; [auto|]. split; [auto|]. intros X. rewrite F; auto.
  - unfold ds_names, json_ds. cbn [ds_cols]. rewrite map_map. apply map_ext. intros [k vs]. destruct (strip_facts (full_col N k (InferColumnType vs) vs)) as (S1 & _). cbn [fst snd]. rewrite S1. apply full_shape.
Qed.
Lemma build_ok : forall (cols : cols_t) n acc, Forall (fun c => length (snd c) = n) cols ->
  for_each (fun acc '(nm, vs) => col <- json_column N n nm vs ;; Ok (acc ++ [col])) cols acc = Ok (acc ++ map (fun c => strip (full_col N (fst c) (InferColumnType (snd c)) (snd c))) cols).
Proof.
  intros cols n acc H. revert acc. induction H as [|[k vs] cols HL _ IH]; intros acc; cbn [for_each map]; [rewrite app_nil_r; reflexivity|]. cbn [fst snd] in *. subst n. rewrite json_column_ok. cbn [bind]. rewrite IH, <- app_assoc. reflexivity.
Qed.

(** *** The text of a table of objects loads as that table; anything after the closing bracket is ignored *)
Theorem C25_aligned : forall filename objs text tail, table objs -> json_text objs text -> exists n, forall fuel, n <= fuel ->
  exists ds, LoadJSON N fuel filename (text ++ tail) = Ok ds /\ ds_name ds = filename /\ ds_rows ds = length objs /\ ds_names ds = keys (hd [] objs) /\ rectangular ds /\
    forall c k, nth_error (keys (hd [] objs)) c = Some k -> exists col, nth_error (ds_cols ds) c = Some col /\ c_name col = k /\
      c_type col = InferColumnType (map (cell_of k) objs) /\
      forall i o, nth_error objs i = Some o -> shows N col i (cell_of k o) /\ (lookup k o = None \/ lookup k o = Some JNull -> col_missing col i = true).
Proof.
  intros filename objs text tail HT (w & b & -> & HW & HB). exists (S (size objs)). intros fuel HF.
  set (K := keys (hd [] objs)). exists (json_ds filename (length objs) (table_cols K objs)).
  assert (HL : Forall (fun c : str * list str => length (snd c) = length objs) (table_cols K objs)) by (unfold table_cols; apply Forall_map, Forall_forall; intros k _; apply map_length).
  destruct (json_ds_facts filename (length objs) (table_cols K objs) HL) as (F1 & F2 & F3). split.
  - unfold LoadJSON. assert (HBOM : RemoveBOM ((w ++ "[" :: b ++ ["]"]) ++ tail) = (w ++ "[" :: b ++ ["]"]) ++ tail).
    { apply (proj2 (C23_bom _)). intros bom t HBM X. destruct bom as [|c1 bom]; [discriminate|]. cbn [map] in HBM. injection HBM as HC _. destruct HW as [|c w HC' _]; cbn [app] in X; injection X as <- _.
      - vm_compute in HC. discriminate.
      - destruct c as [[] [] [] [] [] [] [] []]; vm_compute in HC, HC'; congruence. }
    rewrite HBOM. unfold parse_array. rewrite <- app_assoc. cbn [app]. rewrite <- app_assoc. cbn [app]. rewrite getc_tok by (auto; reflexivity). change ("[" =? "[") with true. cbv iota.
    destruct (parse_objects_ok objs b HB fuel [] tail) as (w' & HW' & E); [lia|]. rewrite E. cbn [bind]. rewrite getc_tok by (auto; reflexivity). change ("]" =? "]") with true. cbv iota. rewrite table_fold by auto. fold K.
    destruct (table_cols K objs) as [|[k vs0] cols] eqn:ET.
    + cbn [bind ds_cols ds_rows]. unfold json_ds. cbn [map]. do 2 f_equal. unfold K in ET. destruct objs as [|o objs]; [reflexivity|]. unfold table_cols in ET. cbn [hd] in ET. unfold table in HT. inversion HT as [|? ? (NE & _)]; subst. destruct o; [now destruct NE|discriminate].
    + rewrite <- ET in *. assert (LV : length vs0 = length objs) by (rewrite ET in HL; inversion HL; auto). rewrite LV. rewrite build_ok by auto. reflexivity.
  - split; [reflexivity|]. split; [exact F2|]. split; [rewrite F3; unfold table_cols; rewrite map_map; cbn [fst]; apply map_id|]. split; [exact F1|].
    intros c k HK. exists (strip (full_col N k (InferColumnType (map (cell_of k) objs)) (map (cell_of k) objs))).
    split; [unfold json_ds, table_cols; cbn [ds_cols]; rewrite map_map; cbn [fst snd]; exact (map_nth_error (fun k => strip (full_col N k (InferColumnType (map (cell_of k) objs)) (map (cell_of k) objs))) _ _ HK)|].
    pose proof (full_shape N k (InferColumnType (map (cell_of k) objs)) (map (cell_of k) objs)) as (A & B & _).
    destruct (strip_facts (full_col N k (InferColumnType (map (cell_of k) objs)) (map (cell_of k) objs))) as (S1 & S2 & _). split; [rewrite S1; exact A|]. split; [rewrite S2; exact B|].
    intros i o HO. assert (HS : shows N (strip (full_col N k (InferColumnType (map (cell_of k) objs)) (map (cell_of k) objs))) i (cell_of k o)).
    { apply strip_shows. apply full_shows. exact (map_nth_error (cell_of k) _ _ HO). }
    split; [exact HS|]. intros HM. assert (EC : cell_of k o = []) by (unfold cell_of; destruct HM as [->| ->]; reflexivity). rewrite EC in HS. unfold shows in HS.
    assert (EP : ParseValue N [] (c_type (strip (full_col N k (InferColumnType (map (cell_of k) objs)) (map (cell_of k) objs)))) = PMissing) by reflexivity. rewrite EP in HS. apply HS.
Qed.

(** *** Any text at all: a rectangular dataset, or a DataError *)
Lemma getc_length : forall s c s', getc s = (c, s') -> length s' <= length s /\ (c <> "000" -> length s' < length s).
Proof. intros s c s' H. unfold getc in H. pose proof (skip_ws_length s). destruct (skip_ws s); injection H as <- <-; cbn [length] in *; split; try lia. intros X. now destruct X. Qed.
Lemma string_body_total : forall n s acc, length s <= n -> string_body acc s = Throw DataErr \/ exists v s', string_body acc s = Ok (v, s') /\ length s' <= length s.
Proof.
  induction n as [|n IH]; intros s acc H; destruct s as [|c s]; cbn [string_body length] in *; auto; [lia|].
  destruct (c =? """"); [right; exists acc, s; split; [reflexivity|lia]|]. destruct (c =? "\").
  - destruct s as [|e s]; [auto|]. cbn [length] in H. destruct (IH s (acc ++ [unescape e])) as [E|(v & s' & E & HL)]; [lia|auto|]. right. exists v, s'. split; [exact E|]. cbn [length]. lia.
  - destruct (IH s (acc ++ [c])) as [E|(v & s' & E & HL)]; [lia|auto|]. right. exists v, s'. split; [exact E|lia].
Qed.
Lemma parse_string_total : forall s, parse_string s = Throw DataErr \/ exists v s', parse_string s = Ok (v, s') /\ length s' < length s.
Proof.
  intros s. unfold parse_string. destruct (getc s) as [c s1] eqn:E. apply getc_length in E. destruct E as [_ E]. destruct (Ascii.eqb_spec c """") as [->|]; [|auto].
  specialize (E ltac:(discriminate)). destruct (string_body_total (length s1) s1 []) as [H|(v & s' & H & HL)]; [lia|auto|]. right. exists v, s'. split; [exact H|lia].
Qed.
Lemma take_num_length : forall s acc t s', take_num acc s = (t, s') -> length s' <= length s.
Proof. induction s as [|c s IH]; intros acc t s' H; cbn [take_num] in H; [injection H as _ <-; lia|]. destruct (num_char c); [apply IH in H; cbn [length]; lia|injection H as _ <-; lia]. Qed.
Lemma strip_prefix_length : forall w s s', strip_prefix w s = Some s' -> length s' <= length s.
Proof. induction w as [|a w IH]; intros s s' H; cbn [strip_prefix] in H; [injection H as <-; lia|]. destruct s as [|c s]; [discriminate|]. destruct (c =? a); [|discriminate]. apply IH in H. cbn [length]. lia. Qed.
Lemma parse_value_total : forall s, parse_value s = Throw DataErr \/ exists v s', parse_value s = Ok (v, s') /\ length s' <= length s.
Proof.
  intros s. pose proof (skip_ws_length s) as HS. unfold parse_value. destruct (_ =? """"); [destruct (parse_string_total s) as [E|(v & s' & E & HL)]; [auto|right; exists v, s'; split; [exact E|lia]]|].
  destruct (_ =? "["); [auto|]. destruct (_ =? "{"); [auto|]. destruct (_ || _).
  - unfold parse_bool. cbv zeta. destruct (strip_prefix (L "true") (skip_ws s)) as [s'|] eqn:E; [right; apply strip_prefix_length in E; eexists; exists s'; split; [reflexivity|lia]|].
    destruct (strip_prefix (L "false") (skip_ws s)) as [s'|] eqn:E2; [right; apply strip_prefix_length in E2; eexists; exists s'; split; [reflexivity|lia]|auto].
  - destruct (_ =? "n").
    + unfold parse_null. destruct (strip_prefix (L "null") (skip_ws s)) as [s'|] eqn:E; [right; apply strip_prefix_length in E; eexists; exists s'; split; [reflexivity|lia]|auto].
    + destruct (_ || _); [|auto]. right. destruct (parse_number s) as [v s'] eqn:E. exists v, s'. split; [reflexivity|]. unfold parse_number in E. destruct (skip_ws s) as [|c s1]; [injection E as _ <-; cbn; lia|].
      cbn [length] in HS. destruct (c =? "-"); apply take_num_length in E; cbn [length] in *; lia.
Qed.
Definition nodup_keys (cols : cols_t) : Prop := NoDup (map fst cols).
Lemma push_value_keys : forall cols k v, nodup_keys cols -> nodup_keys (push_value cols k v).
Proof.
  unfold nodup_keys. intros cols k v. assert (G : forall x, In x (map fst (push_value cols k v)) -> x = k \/ In x (map fst cols)).
  { induction cols as [|[k' vs] cols IH]; intros x; cbn [push_value map fst]; [intros [X|[]]; auto|]. destruct (streqb k' k); cbn [map fst In]; [tauto|]. intros [X|X]; [auto|]. apply IH in X. tauto. }
  induction cols as [|[k' vs] cols IH]; intros ND; cbn [push_value map fst]; [constructor; [intros []|constructor]|]. cbn [map fst] in ND. inversion ND; subst. destruct (streqb k' k) eqn:E; cbn [map fst]; [constructor; auto|].
  apply streqb_neq in E. constructor; [|apply IH; auto; intros x HX; clear - HX; revert HX; induction cols as [|[k'' vs''] cols IH2]; cbn [push_value map fst]; [intros [X|[]]; auto|destruct (streqb k'' k); cbn [map fst In]; [tauto|intros [X|X]; [auto|apply IH2 in X; tauto]]]].
  intros X. assert (Y : k' = k \/ In k' (map fst cols)).
  { clear - X. revert X. induction cols as [|[k'' vs''] cols IH2]; cbn [push_value map fst]; [intros [X|[]]; auto|destruct (streqb k'' k); cbn [map fst In]; [tauto|intros [X|X]; [auto|apply IH2 in X; tauto]]]. }
  destruct Y; contradiction.
Qed.
Lemma parse_pairs_total : forall fuel cols s, length s < fuel -> nodup_keys cols -> parse_pairs fuel cols s = Throw DataErr \/ exists cols' s', parse_pairs fuel cols s = Ok (cols', s') /\ length s' <= length s /\ nodup_keys cols'.
Proof.
  induction fuel as [|fuel IH]; intros cols s HF HK; [lia|]. cbn [parse_pairs]. destruct (peek s =? "}"); [right; eauto 6|].
  set (s0 := if peek s =? "," then snd (getc s) else s). assert (H0 : length s0 <= length s) by (unfold s0; destruct (peek s =? ","); [destruct (getc s) as [c s'] eqn:E; apply getc_length in E; cbn [snd]; lia|lia]). clearbody s0.
  destruct (parse_string_total s0) as [->|(k & s1 & -> & H1)]; [auto|]. cbn [bind]. destruct (getc s1) as [c s2] eqn:E2. apply getc_length in E2. destruct (c =? ":"); [|auto].
  destruct (parse_value_total s2) as [->|(v & s3 & -> & H3)]; [auto|]. cbn [bind]. destruct (IH (push_value cols k v) s3) as [->|(cols' & s' & -> & HL & HK')]; [lia|apply push_value_keys; auto|auto|]. right. exists cols', s'. split; [reflexivity|]. split; [lia|auto].
Qed.
Definition even (cols : cols_t) : Prop := exists n, Forall (fun c => length (snd c) = n) cols.
Lemma pad_even : forall cols, even (pad cols) /\ map fst (pad cols) = map fst cols.
Proof.
  intros cols. unfold pad. split; [|rewrite map_map; apply map_ext; intros [k vs]; reflexivity]. exists (max_rows cols). apply Forall_map, Forall_forall. intros [k vs] HC. cbn [snd]. apply max_rows_ge in HC. cbn [snd] in HC. rewrite app_length, repeat_length. unfold str in *. lia.
Qed.
Lemma parse_objects_total : forall fuel cols s, length s < fuel -> nodup_keys cols -> even cols -> parse_objects fuel cols s = Throw DataErr \/ exists cols' s', parse_objects fuel cols s = Ok (cols', s') /\ nodup_keys cols' /\ even cols'.
Proof.
  induction fuel as [|fuel IH]; intros cols s HF HK HE; [lia|]. cbn [parse_objects]. destruct (peek s =? "]"); [right; eauto 6|].
  set (s0 := if peek s =? "," then snd (getc s) else s). assert (H0 : length s0 <= length s) by (unfold s0; destruct (peek s =? ","); [destruct (getc s) as [c s'] eqn:E; apply getc_length in E; cbn [snd]; lia|lia]). clearbody s0.
  destruct (getc s0) as [c s1] eqn:E1. apply getc_length in E1. destruct (Ascii.eqb_spec c "{") as [->|]; [|auto]. destruct E1 as [_ E1]. specialize (E1 ltac:(discriminate)).
  destruct (parse_pairs_total (S fuel) cols s1) as [->|(cols' & s2 & -> & H2 & HK2)]; [lia|auto|auto|]. cbn [bind]. destruct (getc s2) as [c s3] eqn:E3. apply getc_length in E3. destruct (c =? "}"); [|auto].
  destruct (pad_even cols') as [P1 P2]. apply IH; [lia| |exact P1]. unfold nodup_keys. rewrite P2. exact HK2.
Qed.
Theorem C25_total : forall filename content fuel, length content < fuel ->
  LoadJSON N fuel filename content = Throw DataErr \/
  exists ds, LoadJSON N fuel filename content = Ok ds /\ rectangular ds /\ NoDup (ds_names ds) /\ ds_name ds = filename.
Proof.
  intros filename content fuel HF. unfold LoadJSON, parse_array.
  assert (HB : length (RemoveBOM content) <= length content) by (unfold RemoveBOM; destruct content as [|a [|b [|c s]]]; try lia; destruct (_ && _); cbn [length]; lia).
  destruct (getc (RemoveBOM content)) as [c s] eqn:E. apply getc_length in E. destruct (c =? "["); [|auto].
  destruct (parse_objects_total fuel [] s) as [->|(cols & s' & -> & HK & n & HE)]; [lia|constructor|exists 0; constructor|auto|]. cbn [bind]. destruct (getc s') as [c' s'']. destruct (c' =? "]"); [|auto]. right.
  destruct cols as [|[k vs0] cols0] eqn:EC; [cbn [bind]; eexists; split; [reflexivity|]; split; [constructor|]; split; [constructor|reflexivity]|]. rewrite <- EC in *.
  assert (length vs0 = n) as -> by (rewrite EC in HE; inversion HE; auto). rewrite build_ok by auto. cbn [bind app ds_cols ds_rows]. exists (json_ds filename n cols). split; [reflexivity|].
  destruct (json_ds_facts filename n cols HE) as (F1 & _ & F3). split; [exact F1|]. split; [rewrite F3; exact HK|reflexivity].
Qed.
End D.
Print Assumptions C25_aligned.
Print Assumptions C25_total.
