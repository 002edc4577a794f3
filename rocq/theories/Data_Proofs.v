(** * C24: lemmas about filling the columns *)

From Coq Require Import Ascii String List Bool Arith ZArith Lia.
From Verif Require Import Base Data_Model.
Import ListNotations.
Local Open Scope nat_scope.
Local Open Scope list_scope.

Lemma collect_ext : forall {A B} (f : A -> res B) (g : A -> B) l acc, (forall x, In x l -> f x = Ok (g x)) ->
  for_each (fun acc x => y <- f x ;; Ok (acc ++ [y])) l acc = Ok (acc ++ map g l).
Proof.
  induction l as [|x l IH]; intros acc H; cbn [for_each map].
  - rewrite app_nil_r. reflexivity.
  - rewrite (H x) by (left; reflexivity). cbn [bind]. rewrite IH by (intros; apply H; right; auto). rewrite <- app_assoc. reflexivity.
Qed.
Lemma upd_app_mid : forall A (a b : list A) x y, upd (a ++ x :: b) (length a) y = a ++ y :: b.
Proof. induction a; intros; cbn; [reflexivity|]. f_equal. apply IHa. Qed.
Lemma nth_error_map_seq : forall A (f : nat -> A) n i, i < n -> nth_error (map f (seq 0 n)) i = Some (f i).
Proof.
  intros A f n i H. rewrite nth_error_map. rewrite (nth_error_nth' _ 0) by (rewrite seq_length; auto). rewrite seq_nth by auto. reflexivity.
Qed.
Lemma upd_map_seq : forall A (f g : nat -> A) n i, i < n -> (forall j, j <> i -> f j = g j) ->
  upd (map f (seq 0 n)) i (g i) = map g (seq 0 n).
Proof.
  intros A f g n i H E. apply nth_ext_error. intros j. rewrite nth_error_upd, map_length, seq_length.
  destruct (Nat.eqb_spec i j) as [<-|NE].
  - destruct (Nat.ltb_spec i n); [|lia]. rewrite nth_error_map_seq by auto. reflexivity.
  - destruct (Nat.lt_ge_cases j n) as [HJ|HJ].
    + rewrite !nth_error_map_seq by auto. rewrite E by auto. reflexivity.
    + transitivity (@None A); [|symmetry]; apply nth_error_None; rewrite map_length, seq_length; auto.
Qed.

(** k of the entries computed, the others still at their default *)
Definition part {A} (f : str -> A) (dflt : A) (vals : list str) (k : nat) : list A := map f (firstn k vals) ++ repeat dflt (length vals - k).
Lemma part_length : forall A (f : str -> A) d vals k, k <= length vals -> length (part f d vals k) = length vals.
Proof. intros. unfold part. rewrite app_length, map_length, firstn_length, repeat_length. lia. Qed.
Lemma part_0 : forall A (f : str -> A) d vals, part f d vals 0 = repeat d (length vals).
Proof. intros. unfold part. rewrite Nat.sub_0_r. reflexivity. Qed.
Lemma part_full : forall A (f : str -> A) d vals, part f d vals (length vals) = map f vals.
Proof. intros. unfold part. rewrite firstn_all, Nat.sub_diag, app_nil_r. reflexivity. Qed.
Lemma firstn_S_nth : forall A (l : list A) k x, nth_error l k = Some x -> firstn (S k) l = firstn k l ++ [x].
Proof. induction l; destruct k; cbn; intros x H; try discriminate; [congruence|]. f_equal. apply IHl. auto. Qed.
Lemma part_vset : forall A (f : str -> A) d vals k v, nth_error vals k = Some v -> vset (part f d vals k) k (f v) = Ok (part f d vals (S k)).
Proof.
  intros A f d vals k v H. pose proof (nth_error_Some_lt _ _ _ _ H) as HL. unfold vset. rewrite part_length by lia.
  destruct (Nat.ltb_spec k (length vals)); [|lia]. f_equal. unfold part. rewrite (firstn_S_nth _ _ _ _ H), map_app, <- app_assoc.
  replace (length vals - k) with (S (length vals - S k)) by lia. cbn [repeat map app].
  assert (E : k = length (map f (firstn k vals))) by (rewrite map_length, firstn_length; lia). rewrite E at 3. apply upd_app_mid.
Qed.
Lemma part_same : forall A (f : str -> A) d vals k v, nth_error vals k = Some v -> f v = d -> part f d vals (S k) = part f d vals k.
Proof.
  intros A f d vals k v H E. pose proof (nth_error_Some_lt _ _ _ _ H) as HL. unfold part. rewrite (firstn_S_nth _ _ _ _ H), map_app, <- app_assoc.
  replace (length vals - k) with (S (length vals - S k)) by lia. cbn [repeat map app]. rewrite E. reflexivity.
Qed.

Section D.
Context {D : Type} (N : dnum D).

Definition f_mask (t : ctype) (v : str) : bool := negb (parsed (ParseValue N v t)).
Definition f_real (v : str) : D := match ParseValue N v REAL with PReal d => d | _ => d_nan N end.
Definition f_int (v : str) : Z := match ParseValue N v INT with PInt z => z | _ => 0%Z end.
Definition f_bool (v : str) : bool := match ParseValue N v BOOL with PBool b => b | _ => false end.
Definition f_str (t : ctype) (v : str) : str := match ParseValue N v t with PStr s => s | _ => [] end.
Definition f_dt (v : str) : str * str := let s := f_str DATETIME v in match split_T [] s with Some p => p | None => (s, []) end.
Definition late {A} (k : nat) (l : list A) : list A := match k with 0 => [] | _ => l end.

(** a column whose first k rows are done *)
Definition part_col (nm : str) (t : ctype) (vals : list str) (k : nat) : column :=
  let mask := part (f_mask t) false vals k in
  match t with
  | REAL => mkCol nm t (part f_real (d_zero N) vals k) [] [] [] [] [] mask
  | INT => mkCol nm t [] (part f_int 0%Z vals k) [] [] [] [] mask
  | BOOL => mkCol nm t [] [] (part f_bool false vals k) [] [] [] mask
  | STRING | MISSING => mkCol nm t [] [] [] (part (f_str t) [] vals k) [] [] mask
  | DATE => mkCol nm t [] [] [] (repeat [] (length vals)) (late k (part (f_str t) [] vals k)) [] mask
  | TIME => mkCol nm t [] [] [] (repeat [] (length vals)) [] (late k (part (f_str t) [] vals k)) mask
  | DATETIME => mkCol nm t [] [] [] [] (part (fun v => fst (f_dt v)) [] vals k) (part (fun v => snd (f_dt v)) [] vals k) mask
  end.
Lemma alloc_part : forall nm t vals, alloc_col N nm t (length vals) = part_col nm t vals 0.
Proof. intros nm t vals. unfold alloc_col, part_col. destruct t; rewrite ?part_0; reflexivity. Qed.
Lemma resize_late : forall (f : str -> str) vals k, k <= length vals -> vresize (late k (part f [] vals k)) (length vals) [] = part f [] vals k.
Proof.
  intros f vals k H. destruct k as [|k]; cbn [late].
  - unfold vresize. rewrite part_0. cbn. rewrite firstn_nil, Nat.sub_0_r. reflexivity.
  - unfold vresize. rewrite part_length by auto. rewrite Nat.sub_diag. cbn [repeat]. rewrite app_nil_r. rewrite firstn_all2 by (rewrite part_length; auto). reflexivity.
Qed.
Lemma set_cell_part : forall nm t vals k v, nth_error vals k = Some v ->
  set_cell N (length vals) (part_col nm t vals k) k v = Ok (part_col nm t vals (S k)).
Proof.
  intros nm t vals k v H. pose proof (nth_error_Some_lt _ _ _ _ H) as HL. unfold set_cell.
  assert (EM : forall t, vset (part (f_mask t) false vals k) k (negb (parsed (ParseValue N v t))) = Ok (part (f_mask t) false vals (S k))) by (intros; apply (part_vset _ (f_mask t0)); auto).
  destruct t; cbn [part_col c_type c_mask c_real c_int c_bool c_string c_date c_time c_name]; rewrite EM; cbn [bind].
  - change (match ParseValue N v REAL with PReal d => d | _ => d_nan N end) with (f_real v). rewrite part_vset by auto. reflexivity.
  - change (match ParseValue N v INT with PInt d => d | _ => 0%Z end) with (f_int v). rewrite part_vset by auto. reflexivity.
  - change (match ParseValue N v BOOL with PBool d => d | _ => false end) with (f_bool v). rewrite part_vset by auto. reflexivity.
  - change (match ParseValue N v STRING with PStr d => d | _ => [] end) with (f_str STRING v). rewrite part_vset by auto. reflexivity.
  - change (match ParseValue N v DATE with PStr d => d | _ => [] end) with (f_str DATE v). rewrite resize_late by lia. rewrite part_vset by auto. reflexivity.
  - change (match ParseValue N v TIME with PStr d => d | _ => [] end) with (f_str TIME v). rewrite resize_late by lia. rewrite part_vset by auto. reflexivity.
  - change (match ParseValue N v DATETIME with PStr d => d | _ => [] end) with (f_str DATETIME v). destruct (f_str DATETIME v) as [|a l] eqn:E.
    + cbn [is_empty]. unfold f_dt. do 2 f_equal; symmetry; (eapply part_same; [exact H|]); rewrite E; reflexivity.
    + cbn [is_empty]. rewrite <- E. match goal with |- match ?p with pair _ _ => _ end = _ => change p with (f_dt v) end.
      rewrite (surjective_pairing (f_dt v)). cbv iota beta.
      rewrite (part_vset _ (fun v => fst (f_dt v))) by auto. cbn [bind]. rewrite (part_vset _ (fun v => snd (f_dt v))) by auto. reflexivity.
  - change (match ParseValue N v MISSING with PStr d => d | _ => [] end) with (f_str MISSING v). rewrite part_vset by auto. reflexivity.
Qed.

(** the fields of one column of the rows *)
Definition colvals (rows : list (list str)) (c : nat) : list str := map (fun row => nth c row []) rows.
Lemma fill_spec : forall names types rows n,
  fill N (map (fun c => alloc_col N (names c) (types c) (length rows)) (seq 0 n)) rows =
  Ok (map (fun c => part_col (names c) (types c) (colvals rows c) (length rows)) (seq 0 n)).
Proof.
  intros names types rows n. unfold fill.
  assert (W : wp (for_range 0 (length rows) (fun cols r =>
    row <- vget rows r ;;
    for_range 0 (length cols) (fun cols c =>
      col <- vget cols c ;;
      let value := nth c row [] in
      col' <- set_cell N (length rows) col r value ;;
      vset cols c col') cols) (map (fun c => alloc_col N (names c) (types c) (length rows)) (seq 0 n)))
    (fun cols => cols = map (fun c => part_col (names c) (types c) (colvals rows c) (length rows)) (seq 0 n))).
  { apply (for_range_inv _ _ (fun r cols => cols = map (fun c => part_col (names c) (types c) (colvals rows c) r) (seq 0 n))); [lia| |].
    - apply map_ext. intros c. replace (length rows) with (length (colvals rows c)) by apply map_length. apply alloc_part.
    - intros r cols _ HR ->. destruct (nth_error_lt _ _ _ HR) as [row HROW]. assert (X : vget rows r = Ok row) by (apply vget_Ok; auto). rewrite X. cbn [bind].
      rewrite map_length, seq_length.
      eapply wp_mono; [apply (for_range_inv _ _ (fun c cols => cols = map (fun j => part_col (names j) (types j) (colvals rows j) (if j <? c then S r else r)) (seq 0 n))); [lia| |]|].
      + apply map_ext. intros c. reflexivity.
      + intros c cols _ HC ->. apply wp_bind. unfold vget. rewrite nth_error_map_seq by auto. cbn [wp]. rewrite Nat.ltb_irrefl.
        cbv zeta. replace (length rows) with (length (colvals rows c)) by apply map_length. rewrite set_cell_part by exact (map_nth_error (fun row => nth c row []) _ _ HROW).
        cbn [bind]. unfold vset. rewrite map_length, seq_length. destruct (Nat.ltb_spec c n); [|lia]. cbn [wp].
        rewrite <- (upd_map_seq _ (fun j => part_col (names j) (types j) (colvals rows j) (if j <? c then S r else r)) (fun j => part_col (names j) (types j) (colvals rows j) (if j <? c + 1 then S r else r)) n c HC).
        * cbv beta. destruct (Nat.ltb_spec c (c + 1)); [|lia]. reflexivity.
        * intros j NE. cbv beta. destruct (Nat.ltb_spec j c), (Nat.ltb_spec j (c + 1)); try lia; reflexivity.
      + intros cols' ->. apply map_ext_in. intros j HJ. apply in_seq in HJ. destruct (Nat.ltb_spec j n); [|lia]. rewrite Nat.add_1_r. reflexivity. }
  apply wp_elim in W. destruct W as (x & E & ->). exact E.
Qed.

Definition full_col (nm : str) (t : ctype) (vals : list str) : column := part_col nm t vals (length vals).
End D.
