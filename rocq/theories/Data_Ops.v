(** * C26: operations on datasets *)

From Coq Require Import Ascii String List Bool Arith ZArith Lia Permutation.
From Verif Require Import Base Data_Model Data_Text Data_Proofs Data_CSV Data_Infer.
Import ListNotations.
Local Open Scope nat_scope.
Local Open Scope list_scope.

Section D.
Context {D : Type} (N : dnum D).
Notation column := (@column D).
Notation dataset := (@dataset D).

(** ** Specification *)
(** the text of a cell *)
Definition text (c : column) (i : nat) : str := match col_string N c i with Ok s => s | _ => [] end.
(** row [j] of [c'] shows the same as row [i] of [c] *)
Definition same_cell (c' : column) (j : nat) (c : column) (i : nat) : Prop :=
  col_missing c' j = col_missing c i /\ col_string N c' j = col_string N c i /\ col_get_real N c' j = col_get_real N c i.
Definition all_rows (ds : dataset) : list (list str) := map (fun r => map (fun c => text c r) (ds_cols ds)) (seq 0 (ds_rows ds)).
(** the table as text: a line of names, then a line per row, fields separated by tabs *)
Definition table_text (names : list str) (rows : list (list str)) : str := flat_map (fun cells => join "009" cells ++ ["010"%char]) (names :: rows).
Definition first_named (ds : dataset) (nm : str) (c : column) : Prop :=
  exists pre post, ds_cols ds = pre ++ c :: post /\ c_name c = nm /\ Forall (fun x => c_name x <> nm) pre.

(** ** Lookup *)
Lemma streqb_refl : forall s, streqb s s = true. Proof. intros. apply streqb_eq. reflexivity. Qed.
Lemma streqb_neq : forall a b, streqb a b = false <-> a <> b.
Proof. intros a b. split; intros H; [intros ->; rewrite streqb_refl in H; discriminate|]. destruct (streqb a b) eqn:E; [apply streqb_eq in E; contradiction|reflexivity]. Qed.
Theorem C26_lookup : forall ds nm,
  (ds_has ds nm = true <-> In nm (ds_names ds)) /\
  (In nm (ds_names ds) -> exists c, ds_find ds nm = Ok c /\ first_named ds nm c) /\
  (~ In nm (ds_names ds) -> ds_find ds nm = Throw DataErr).
Proof.
  intros ds nm. unfold ds_has, ds_names, ds_find, first_named. generalize (ds_cols ds) as cols. intros cols. split; [|split].
  - rewrite existsb_exists. split.
    + intros (c & H & E). apply streqb_eq in E. subst nm. apply in_map. auto.
    + intros H. apply in_map_iff in H. destruct H as (c & E & H). exists c. split; auto. apply streqb_eq. auto.
  - induction cols as [|c cols IH]; intros H; [destruct H|]. cbn [map find]. destruct (streqb (c_name c) nm) eqn:E.
    + exists c. split; [reflexivity|]. exists [], cols. apply streqb_eq in E. auto.
    + destruct H as [H|H]; [exfalso; apply streqb_eq in H; unfold str in *; congruence|]. destruct (IH H) as (c' & F & pre & post & -> & E1 & E2). exists c'. split; [exact F|].
      exists (c :: pre), post. split; [reflexivity|]. split; [exact E1|]. constructor; auto. apply streqb_neq. auto.
  - intros H. destruct (find _ cols) as [c|] eqn:F; [|reflexivity]. apply find_some in F. destruct F as [HI E]. exfalso. apply H. apply streqb_eq in E. subst nm. apply in_map. auto.
Qed.

(** ** Reading cells *)
Definition col_wf (n : nat) (c : column) : Prop := col_size c = n /\ length (c_mask c) = n /\ (c_type c = DATETIME -> length (c_time c) = n).
Lemma col_string_ok : forall n c i, col_wf n c -> col_string N c i = Ok (text c i).
Proof.
  intros n c i (H1 & H2 & H3). unfold text. unfold col_string. destruct (Nat.leb_spec (col_size c) i) as [|HI]; [reflexivity|]. destruct (col_missing c i); [reflexivity|].
  assert (G : forall A (l : list A), i < length l -> exists x, vget l i = Ok x) by (intros A l HL; destruct (nth_error_lt _ _ _ HL) as [x E]; exists x; apply vget_Ok; auto).
  unfold col_size in *. destruct (c_type c) eqn:ET; try reflexivity; try (destruct (G _ _ HI) as [x ->]; reflexivity).
  destruct (G _ _ HI) as [x ->]. cbn [bind]. destruct (G _ (c_time c)) as [y ->]; [rewrite H3 by reflexivity; lia|]. reflexivity.
Qed.
Lemma gather_ok : forall A (data : list A) keep, Forall (fun i => i < length data) keep ->
  exists l, gather data keep = Ok l /\ length l = length keep /\ forall k i, nth_error keep k = Some i -> nth_error l k = nth_error data i.
Proof.
  intros A data keep HF. destruct data as [|d0 data']; [destruct keep as [|i keep]; [|inversion HF; cbn in *; lia]; exists []; repeat split; intros [] ?; discriminate|].
  set (data := d0 :: data') in *. exists (map (fun i => nth i data d0) keep). split; [|split].
  - unfold gather. rewrite (collect_ext (vget data) (fun i => nth i data d0)); [reflexivity|]. intros i HI. rewrite Forall_forall in HF. apply vget_Ok, nth_error_nth'. auto.
  - apply map_length.
  - intros k i HK. rewrite (map_nth_error _ _ _ HK). symmetry. apply nth_error_nth'. rewrite Forall_forall in HF. apply HF. eapply nth_error_In; eauto.
Qed.
Lemma nth_map_mask : forall (f : nat -> bool) keep k i, nth_error keep k = Some i -> nth k (map f keep) false = f i.
Proof. intros. apply nth_error_nth, map_nth_error. auto. Qed.
Lemma vget_same : forall A (l l' : list A) k i, nth_error l k = nth_error l' i -> vget l k = vget l' i.
Proof. intros A l l' k i H. unfold vget. rewrite H. reflexivity. Qed.
Lemma filter_col_ok : forall n keep c, col_wf n c -> Forall (fun i => i < n) keep ->
  exists c', filter_col keep c = Ok c' /\ c_name c' = c_name c /\ c_type c' = c_type c /\ col_wf (length keep) c' /\
    forall k i, nth_error keep k = Some i -> same_cell c' k c i.
Proof.
  intros n keep c (W1 & W2 & W3) HK.
  assert (HI : forall k i, nth_error keep k = Some i -> k < length keep /\ i < n) by (intros k i E; split; [eapply nth_error_Some_lt; eauto|]; rewrite Forall_forall in HK; apply HK; eapply nth_error_In; eauto).
  unfold filter_col, col_wf, same_cell, col_string, col_get_real. unfold col_size in *. destruct (c_type c) eqn:ET.
  all: match goal with
       | |- context [gather ?l ?kp] => destruct (gather_ok _ l kp) as (x & -> & LX & GX); [rewrite W1; exact HK|]; cbn [bind]
       | _ => idtac end.
  all: try match goal with
       | |- context [gather ?l ?kp] => destruct (gather_ok _ l kp) as (y & -> & LY & GY); [rewrite W3 by reflexivity; exact HK|]; cbn [bind]
       | _ => idtac end.
  all: eexists; split; [reflexivity|]; cbn [c_name c_type c_real c_int c_bool c_string c_date c_time c_mask]; split; [reflexivity|]; split; [reflexivity|]; split;
       [split; [rewrite ?map_length; auto|split; [apply map_length|intros; auto; discriminate]]|].
  all: intros k i E; destruct (HI k i E) as [HA HB].
  all: assert (EM : forall nm t a b c0 d e f, col_missing (@mkCol D nm t a b c0 d e f (map (col_missing c) keep)) k = col_missing c i) by (intros; unfold col_missing at 1; cbn [c_mask]; apply nth_map_mask; auto).
  all: rewrite EM; split; [reflexivity|]; rewrite ?LX, ?W1, ?map_length, ?W2.
  all: destruct (Nat.leb_spec (length keep) k); [lia|]; destruct (Nat.leb_spec n i); [lia|]; cbn [orb].
  all: try rewrite (vget_same _ _ _ _ _ (GX k i E)); try rewrite (vget_same _ _ _ _ _ (GY k i E)); split; reflexivity.
Qed.

Definition kept (ds : dataset) (fc : column) (predicate : str -> bool) : list nat := filter (fun i => predicate (text fc i)) (seq 0 (ds_rows ds)).
Lemma keep_ok : forall (fc : column) (predicate : str -> bool) (l acc : list nat), (forall i, col_string N fc i = Ok (text fc i)) ->
  for_each (fun (keep : list nat) (i : nat) => s <- col_string N fc i ;; Ok (if predicate s then keep ++ [i] else keep)) l acc = Ok (acc ++ filter (fun i => predicate (text fc i)) l).
Proof.
  intros fc predicate l. induction l as [|i l IH]; intros acc H; cbn [for_each filter]; [rewrite app_nil_r; reflexivity|].
  rewrite H. cbn [bind]. rewrite IH by auto. destruct (predicate (text fc i)); [rewrite <- app_assoc|]; reflexivity.
Qed.
(** FilterRows keeps exactly the rows whose text in the named column satisfies the predicate, in order, in every column *)
Theorem C26_filter : forall ds nm predicate fc, rectangular ds -> first_named ds nm fc ->
  exists ds', ds_filter N ds nm predicate = Ok ds' /\ rectangular ds' /\ ds_rows ds' = length (kept ds fc predicate) /\
    ds_names ds' = ds_names ds /\ map c_type (ds_cols ds') = map c_type (ds_cols ds) /\
    forall j c c', nth_error (ds_cols ds) j = Some c -> nth_error (ds_cols ds') j = Some c' ->
      forall k i, nth_error (kept ds fc predicate) k = Some i -> same_cell c' k c i.
Proof.
  intros ds nm predicate fc HR HN. unfold ds_filter.
  assert (HF : ds_find ds nm = Ok fc).
  { destruct HN as (pre & post & E & E1 & E2). unfold ds_find. rewrite E. assert (G : find (fun c => streqb (c_name c) nm) (pre ++ fc :: post) = Some fc); [|rewrite G; reflexivity].
    clear E. induction E2 as [|x pre NE _ IH]; cbn [app find]; [rewrite (proj2 (streqb_eq _ _) E1); reflexivity|]. rewrite (proj2 (streqb_neq _ _) NE). exact IH. }
  rewrite HF. cbn [bind]. unfold rectangular in HR. fold (col_wf (ds_rows ds)) in HR.
  assert (HW : Forall (col_wf (ds_rows ds)) (ds_cols ds)) by exact HR. clear HR.
  assert (HFW : col_wf (ds_rows ds) fc). { destruct HN as (pre & post & E & _). rewrite E in HW. apply Forall_app in HW. destruct HW as [_ HW]. inversion HW; auto. }
  unfold for_range. rewrite Nat.sub_0_r. rewrite keep_ok by (intros i; eapply col_string_ok; eauto). cbn [bind app]. fold (kept ds fc predicate).
  assert (HK : Forall (fun i => i < ds_rows ds) (kept ds fc predicate)). { apply Forall_forall. intros i HI. apply filter_In in HI. destruct HI as [HI _]. apply in_seq in HI. lia. }
  set (keep := kept ds fc predicate) in *. clearbody keep. unfold rectangular, ds_names.
  assert (G : forall cols acc, Forall (col_wf (ds_rows ds)) cols -> exists cols', for_each (fun cols c => c' <- filter_col keep c ;; Ok (cols ++ [c'])) cols acc = Ok (acc ++ cols') /\
     Forall (col_wf (length keep)) cols' /\ map c_name cols' = map c_name cols /\ map c_type cols' = map c_type cols /\
     forall j c c', nth_error cols j = Some c -> nth_error cols' j = Some c' -> forall k i, nth_error keep k = Some i -> same_cell c' k c i).
  { induction cols as [|c cols IH]; intros acc HC; cbn [for_each].
    - exists []. rewrite app_nil_r. repeat split; auto; destruct j; discriminate.
    - inversion HC; subst. destruct (filter_col_ok (ds_rows ds) keep c) as (c' & E & E1 & E2 & E3 & E4); auto. rewrite E. cbn [bind].
      destruct (IH (acc ++ [c'])) as (cols' & F & F1 & F2 & F3 & F4); auto. exists (c' :: cols'). rewrite F, <- app_assoc. split; [reflexivity|]. split; [constructor; auto|]. cbn [map]. split; [congruence|]. split; [congruence|].
      intros [|j] x x' HX HX'; cbn in HX, HX'; [injection HX as <-; injection HX' as <-; auto|eapply F4; eauto]. }
  destruct (G (ds_cols ds) []) as (cols' & F & F1 & F2 & F3 & F4); auto. rewrite F. cbn [bind app]. eexists. split; [reflexivity|]. cbn [ds_cols ds_rows]. split; [exact F1|]. auto.
Qed.
Theorem C26_filter_unknown : forall ds nm predicate, ~ In nm (ds_names ds) -> ds_filter N ds nm predicate = Throw DataErr.
Proof. intros ds nm predicate H. unfold ds_filter. rewrite (proj2 (proj2 (C26_lookup ds nm)) H). reflexivity. Qed.

(** SelectColumns gives the named columns, unchanged, in the order asked for, or throws *)
Theorem C26_select : forall ds names,
  (Forall (fun nm => In nm (ds_names ds)) names -> exists ds', ds_select ds names = Ok ds' /\ ds_rows ds' = ds_rows ds /\ ds_names ds' = names /\
     Forall2 (fun nm c => first_named ds nm c) names (ds_cols ds') /\ (rectangular ds -> rectangular ds')) /\
  (~ Forall (fun nm => In nm (ds_names ds)) names -> ds_select ds names = Throw DataErr).
Proof.
  intros ds names. unfold ds_select.
  assert (G : forall l acc, (Forall (fun nm => In nm (ds_names ds)) l -> exists cols, for_each (fun cols nm => c <- ds_find ds nm ;; Ok (cols ++ [c])) l acc = Ok (acc ++ cols) /\ Forall2 (fun nm c => first_named ds nm c) l cols) /\
     (~ Forall (fun nm => In nm (ds_names ds)) l -> for_each (fun cols nm => c <- ds_find ds nm ;; Ok (cols ++ [c])) l acc = Throw DataErr)).
  { induction l as [|nm l IH]; intros acc; cbn [for_each].
    - split; [intros _; exists []; rewrite app_nil_r; auto|intros X; destruct X; constructor].
    - destruct (in_dec (list_eq_dec ascii_dec) nm (ds_names ds)) as [HI|HN].
      + destruct (proj1 (proj2 (C26_lookup ds nm)) HI) as (c & F & HC). rewrite F. cbn [bind]. destruct (IH (acc ++ [c])) as [IH1 IH2]. split.
        * intros HF. inversion HF; subst. destruct IH1 as (cols & E1 & E2); auto. exists (c :: cols). rewrite E1, <- app_assoc. auto.
        * intros HF. apply IH2. intros X. apply HF. constructor; auto.
      + rewrite (proj2 (proj2 (C26_lookup ds nm)) HN). cbn [bind]. split; [intros HF; inversion HF; contradiction|reflexivity]. }
  destruct (G names []) as [G1 G2]. split.
  - intros HF. destruct (G1 HF) as (cols & -> & H2). cbn [bind app]. eexists. split; [reflexivity|]. cbn [ds_rows ds_cols]. split; [reflexivity|]. split; [|split; [exact H2|]].
    + unfold ds_names. cbn [ds_cols]. clear - H2. induction H2 as [|nm c l cols (pre & post & _ & E & _) _ IH]; [reflexivity|]. cbn [map]. congruence.
    + unfold rectangular. cbn [ds_rows ds_cols]. intros HR. clear - H2 HR. induction H2 as [|nm c l cols (pre & post & E & _) _ IH]; constructor; auto. rewrite E in HR. apply Forall_app in HR. destruct HR as [_ HR]. inversion HR; auto.
  - intros HF. rewrite (G2 HF). reflexivity.
Qed.

(** ** Head, Tail, Sample *)
Lemma tab_line_join : forall cells, tab_line cells = join "009" cells ++ ["010"%char].
Proof.
  intros [|x cells]; [reflexivity|]. unfold tab_line. f_equal. revert x. induction cells as [|y cells IH]; intros x; [apply app_nil_r|].
  change (join "009" (x :: y :: cells)) with (x ++ "009"%char :: join "009" (y :: cells)). rewrite <- IH. reflexivity.
Qed.
Lemma rows_to_string_ok : forall ds idx, rectangular ds ->
  rows_to_string N ds idx = Ok (table_text (ds_names ds) (map (fun r => map (fun c => text c r) (ds_cols ds)) idx)).
Proof.
  intros ds idx HR. unfold rows_to_string, table_text. cbn [flat_map]. rewrite <- tab_line_join. generalize (tab_line (ds_names ds)) as acc.
  induction idx as [|r idx IH]; intros acc; cbn [for_each map flat_map]; [rewrite app_nil_r; reflexivity|].
  unfold row_strings. rewrite (collect_ext (fun c => col_string N c r) (fun c => text c r)).
  - cbn [bind app]. rewrite IH, <- app_assoc, tab_line_join. reflexivity.
  - intros c HC. unfold rectangular in HR. rewrite Forall_forall in HR. apply (col_string_ok (ds_rows ds)). apply HR. auto.
Qed.
Lemma seq_rows : forall ds a n, a + n <= ds_rows ds -> map (fun r => map (fun c => text c r) (ds_cols ds)) (seq a n) = firstn n (skipn a (all_rows ds)).
Proof.
  intros ds a n H. unfold all_rows. rewrite skipn_map, firstn_map. f_equal. replace (ds_rows ds) with (a + (n + (ds_rows ds - a - n))) by lia.
  rewrite seq_app, skipn_app, seq_length, Nat.sub_diag. rewrite skipn_all2 by (rewrite seq_length; lia). cbn [app skipn]. rewrite seq_app, firstn_app, seq_length, Nat.sub_diag. cbn [firstn]. rewrite app_nil_r. rewrite firstn_all2 by (rewrite seq_length; lia). reflexivity.
Qed.
(** the first, respectively last, n rows (all of them if there are fewer) *)
Theorem C26_head_tail : forall ds n, rectangular ds ->
  ds_head N ds n = Ok (table_text (ds_names ds) (firstn n (all_rows ds))) /\
  ds_tail N ds n = Ok (table_text (ds_names ds) (skipn (ds_rows ds - n) (all_rows ds))).
Proof.
  intros ds n HR. unfold ds_head, ds_tail. rewrite !rows_to_string_ok by auto. assert (LA : length (all_rows ds) = ds_rows ds) by (unfold all_rows; rewrite map_length, seq_length; reflexivity). split; do 2 f_equal.
  - rewrite seq_rows by lia. cbn [skipn]. destruct (Nat.min_spec n (ds_rows ds)) as [[H ->]|[H ->]]; [reflexivity|]. rewrite !firstn_all2; auto; lia.
  - destruct (Nat.ltb_spec n (ds_rows ds)) as [H|H].
    + rewrite seq_rows by lia. apply firstn_all2. rewrite skipn_length. lia.
    + rewrite seq_rows by lia. replace (ds_rows ds - n) with 0 by lia. cbn [skipn]. apply firstn_all2. lia.
Qed.
Lemma swap_perm : forall A (l : list A) i j a b, nth_error l i = Some a -> nth_error l j = Some b -> Permutation l (upd (upd l i b) j a).
Proof.
  intros A l i j a b HA HB. destruct (Nat.eq_dec i j) as [->|NE].
  - assert (a = b) by congruence. subst b. replace (upd (upd l j a) j a) with l; [reflexivity|]. apply nth_ext_error. intros k. rewrite !nth_error_upd, upd_length. pose proof (nth_error_Some_lt _ _ _ _ HA). destruct (Nat.eqb_spec j k) as [->|]; [|reflexivity]. destruct (Nat.ltb_spec k (length l)); [auto|lia].
  - apply Permutation_nth_error. split; [rewrite !upd_length; reflexivity|]. exists (fun k => if k =? i then j else if k =? j then i else k). split.
    + intros x y H. destruct (Nat.eqb_spec x i), (Nat.eqb_spec y i), (Nat.eqb_spec x j), (Nat.eqb_spec y j); subst; auto; lia.
    + intros k. pose proof (nth_error_Some_lt _ _ _ _ HA). pose proof (nth_error_Some_lt _ _ _ _ HB). rewrite !nth_error_upd, upd_length.
      destruct (Nat.eqb_spec k i) as [->|NI].
      * destruct (Nat.eqb_spec j i); [lia|]. rewrite Nat.eqb_refl. destruct (Nat.ltb_spec i (length l)); [auto|lia].
      * destruct (Nat.eqb_spec k j) as [->|NJ].
        -- rewrite Nat.eqb_refl. destruct (Nat.ltb_spec j (length l)); [auto|lia].
        -- destruct (Nat.eqb_spec j k); [lia|]. destruct (Nat.eqb_spec i k); [lia|]. reflexivity.
Qed.
Lemma sample_indices_ok : forall rows n seed, n < rows -> exists idx, sample_indices rows n seed = Ok idx /\ length idx = n /\ NoDup idx /\ Forall (fun i => i < rows) idx.
Proof.
  intros rows n seed H. unfold sample_indices.
  match goal with |- context [for_range 0 n ?f ?s0] => assert (W : wp (for_range 0 n f s0) (fun '(idx, _) => Permutation (seq 0 rows) idx)) end.
  { apply (for_range_inv _ _ (fun _ '(idx, _) => Permutation (seq 0 rows) idx)); [lia|reflexivity|]. intros i [idx st] _ HI HP. cbv zeta.
    pose proof (Permutation_length HP) as HL. rewrite seq_length in HL.
    set (j := i + Z.to_nat (lcg st mod Z.of_nat (rows - i))%Z). assert (HJ : j < rows).
    { unfold j. pose proof (Z.mod_pos_bound (lcg st) (Z.of_nat (rows - i))). lia. }
    destruct (nth_error_lt _ idx i) as [a EA]; [lia|]. destruct (nth_error_lt _ idx j) as [b EB]; [lia|]. unfold vget. rewrite EA, EB. cbn [bind]. unfold vset.
    destruct (Nat.ltb_spec i (length idx)); [|lia]. cbn [bind]. rewrite upd_length. destruct (Nat.ltb_spec j (length idx)); [|lia]. cbn [bind wp]. rewrite HP. apply swap_perm; auto. }
  apply wp_elim in W. destruct W as ([idx st] & E & HP). rewrite E. cbn [bind]. exists (firstn n idx). split; [reflexivity|]. pose proof (Permutation_length HP) as HL. rewrite seq_length in HL.
  split; [rewrite firstn_length; lia|]. split.
  - assert (ND : NoDup idx) by (eapply Permutation_NoDup; [exact HP|apply seq_NoDup]). rewrite <- (firstn_skipn n idx) in ND. clear - ND. induction (firstn n idx); cbn in *; [constructor|]. inversion ND; subst. constructor; auto. intros X. apply H1, in_or_app. auto.
  - apply Forall_forall. intros i HI. assert (In i (seq 0 rows)) by (eapply Permutation_in; [apply Permutation_sym, HP|]; rewrite <- (firstn_skipn n idx); apply in_or_app; auto). apply in_seq in H0. lia.
Qed.
(** n different rows of the dataset, or all of them *)
Theorem C26_sample : forall ds n seed, rectangular ds ->
  exists idx, ds_sample N ds n seed = Ok (table_text (ds_names ds) (map (fun r => map (fun c => text c r) (ds_cols ds)) idx)) /\
    length idx = Nat.min n (ds_rows ds) /\ NoDup idx /\ Forall (fun i => i < ds_rows ds) idx.
Proof.
  intros ds n seed HR. unfold ds_sample. destruct (Nat.leb_spec (ds_rows ds) n) as [H|H].
  - exists (seq 0 (ds_rows ds)). rewrite rows_to_string_ok by auto. split; [reflexivity|]. rewrite seq_length. split; [lia|]. split; [apply seq_NoDup|]. apply Forall_forall. intros i HI. apply in_seq in HI. lia.
  - destruct (sample_indices_ok (ds_rows ds) n seed H) as (idx & -> & L1 & ND & HF). cbn [bind]. exists idx. rewrite rows_to_string_ok by auto. split; [reflexivity|]. split; [lia|auto].
Qed.
(** GetStringColumn: the texts of the column *)
Theorem C26_string_column : forall ds nm, rectangular ds -> In nm (ds_names ds) ->
  exists c', first_named ds nm c' /\ ds_string_column N ds nm = Ok (map (text c') (seq 0 (ds_rows ds))).
Proof.
  intros ds nm HR HI. destruct (proj1 (proj2 (C26_lookup ds nm)) HI) as (c' & F & HC). exists c'. split; [exact HC|]. unfold ds_string_column. rewrite F. cbn [bind]. unfold for_range. rewrite Nat.sub_0_r.
  rewrite (collect_ext (col_string N c') (text c')); [reflexivity|]. intros i _. apply (col_string_ok (ds_rows ds)). destruct HC as (pre & post & E & _). unfold rectangular in HR. rewrite E in HR. apply Forall_app in HR. destruct HR as [_ HR]. inversion HR; auto.
Qed.
(** GetRealColumn, GetIntColumn, GetBoolColumn: as many values as rows, for a column of a fitting type only; the value of a
    row that is not missing is the one [col_get_real] shows *)
Theorem C26_typed_column : forall ds nm, rectangular ds -> In nm (ds_names ds) -> exists c, first_named ds nm c /\
  (c_type c = REAL \/ c_type c = INT -> exists l, ds_real_column N ds nm = Ok l /\ length l = ds_rows ds /\
     forall i x, nth_error l i = Some x -> col_missing c i = false -> col_get_real N c i = Ok x) /\
  (c_type c <> REAL -> c_type c <> INT -> ds_real_column N ds nm = Throw DataErr) /\
  (c_type c = INT -> exists l, ds_int_column ds nm = Ok l /\ length l = ds_rows ds) /\ (c_type c <> INT -> ds_int_column ds nm = Throw DataErr) /\
  (c_type c = BOOL -> exists l, ds_bool_column ds nm = Ok l /\ length l = ds_rows ds) /\ (c_type c <> BOOL -> ds_bool_column ds nm = Throw DataErr).
Proof.
  intros ds nm HR HI. destruct (proj1 (proj2 (C26_lookup ds nm)) HI) as (c & F & HC). exists c. split; [exact HC|].
  assert (HW : col_wf (ds_rows ds) c). { destruct HC as (pre & post & E & _). unfold rectangular in HR. rewrite E in HR. apply Forall_app in HR. destruct HR as [_ HR]. inversion HR; auto. }
  destruct HW as (W1 & W2 & _). unfold ds_real_column, ds_int_column, ds_bool_column. rewrite F. cbn [bind]. unfold col_get_real; unfold col_size in *.
  destruct (c_type c) eqn:ET; (split; [intros [X|X]; try discriminate|split; [intros; try congruence; auto|split; [intros X; try discriminate|split; [intros; try congruence; auto|split; [intros X; try discriminate|intros; try congruence; auto]]]]]); eauto.
  - exists (c_real c). split; [reflexivity|]. split; [auto|]. intros i x E HM. rewrite HM. unfold vget. rewrite E. pose proof (nth_error_Some_lt _ _ _ _ E). destruct (Nat.leb_spec (length (c_real c)) i); [lia|]. reflexivity.
  - exists (map (d_of_int N) (c_int c)). split; [reflexivity|]. split; [rewrite map_length; auto|]. intros i x E HM. rewrite HM. pose proof (nth_error_Some_lt _ _ _ _ E) as HL. rewrite map_length in HL. destruct (Nat.leb_spec (length (c_int c)) i); [lia|]. cbn [orb].
    destruct (nth_error_lt _ (c_int c) i HL) as [z EZ]. rewrite (map_nth_error _ _ _ EZ) in E. injection E as <-. unfold vget. rewrite EZ. reflexivity.
Qed.
End D.
Print Assumptions C26_lookup.
Print Assumptions C26_filter.
Print Assumptions C26_filter_unknown.
Print Assumptions C26_select.
Print Assumptions C26_head_tail.
Print Assumptions C26_sample.
Print Assumptions C26_string_column.
Print Assumptions C26_typed_column.

(** ** A concrete dataset *)
Definition exDS : @dataset Z := match LoadFromCSVString Zdnum exCSV "," true with Ok ds => ds | _ => mkData [] [] 0 end.
Example C26_exDS : rectangular exDS /\ In (L "ok") (ds_names exDS) /\ ds_rows exDS = 3.
Proof. split; [|split; vm_compute; auto]. unfold rectangular. vm_compute. repeat (constructor; [repeat split; intros; try discriminate|]). constructor. Qed.
Example C26_computed :
  match ds_filter Zdnum exDS (L "ok") (fun s => negb (streqb s (L "true"))) with
  | Ok d => ds_rows d = 2 /\ map c_int (ds_cols d) = [[-2; 0]%Z; []; []; []] /\ map c_mask (ds_cols d) = [[false; true]; [false; false]; [false; true]; [true; false]]
  | _ => False
  end /\ match ds_select exDS [L "ok"; L "id"] with Ok d => ds_names d = [L "ok"; L "id"] | _ => False end /\ ds_select exDS [L "zz"] = Throw DataErr /\
  ds_tail Zdnum exDS 1 = Ok (table_text (ds_names exDS) [map L ["NA"; "x"; "NA"; "2024-02-01 8:05"]]%string) /\
  sample_indices 5 3 42 = Ok [0; 1; 3].
Proof. vm_compute. repeat split. Qed.
