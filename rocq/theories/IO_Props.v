(** * C20-C22: the binary file formats *)

From Coq Require Import List Bool Arith ZArith Lia.
From Verif Require Import Base Num Mat_Model IO_Model.
Import ListNotations.
Local Open Scope nat_scope.

(** the layout is faithful: every element takes c_size > 0 bytes and is recovered from them *)
Record codec_laws {E} (C : codec E) : Prop := {
  cl_pos : 0 < c_size C;
  cl_small : (Z.of_nat (c_size C) < 2 ^ 32)%Z;
  cl_len : forall e, length (c_enc C e) = c_size C;
  cl_dec : forall e, c_ok C e -> c_dec C (c_enc C e) = e }.

Lemma skipn_skipn : forall {A} a b (l : list A), skipn a (skipn b l) = skipn (a + b) l.
Proof. intros A a b. induction b as [|b IH]; intros l; [rewrite Nat.add_0_r; reflexivity|]. rewrite Nat.add_succ_r. destruct l as [|x l]; [rewrite !skipn_nil; reflexivity|]. cbn [skipn]. apply IH. Qed.
Lemma skipn_firstn_swap : forall {A} a b (l : list A), skipn a (firstn b l) = firstn (b - a) (skipn a l).
Proof. intros A a b l. apply skipn_firstn_comm. Qed.

(** ** Byte order *)
Lemma le_bytes_length : forall n z, length (le_bytes n z) = n.
Proof. induction n as [|n IH]; intros z; cbn; auto. Qed.
Lemma le_val_bytes : forall n z, (0 <= z < 256 ^ Z.of_nat n)%Z -> le_val (le_bytes n z) = z.
Proof.
  induction n as [|n IH]; intros z H; [cbn in *; lia|]. cbn [le_bytes le_val]. rewrite IH.
  - pose proof (Z.div_mod z 256 ltac:(lia)). lia.
  - rewrite Nat2Z.inj_succ, Z.pow_succ_r in H by lia. split; [apply Z.div_pos; lia|]. apply Z.div_lt_upper_bound; lia.
Qed.
Lemma le_bytes_val : forall l, Forall (fun b => 0 <= b < 256)%Z l -> le_bytes (length l) (le_val l) = l.
Proof.
  induction 1 as [|b l Hb HF IH]; [reflexivity|]. cbn [length le_bytes le_val].
  replace ((b + 256 * le_val l) mod 256)%Z with b by (rewrite Z.add_comm, Z.mul_comm, Z_mod_plus_full || (rewrite (Z.mul_comm 256), Z_mod_plus_full); rewrite Z.mod_small; lia).
  replace ((b + 256 * le_val l) / 256)%Z with (le_val l); [rewrite IH; reflexivity|]. rewrite (Z.mul_comm 256), Z.div_add by lia. rewrite Z.div_small; lia.
Qed.
Lemma le_val_bound : forall l, Forall (fun b => 0 <= b < 256)%Z l -> (0 <= le_val l < 256 ^ Z.of_nat (length l))%Z.
Proof.
  induction 1 as [|b l Hb HF IH]; [cbn; lia|]. cbn [length le_val]. rewrite Nat2Z.inj_succ, Z.pow_succ_r by lia. lia.
Qed.
Lemma read_app : forall n a b, length a = n -> is_read n (mkIn (a ++ b) false) = (a, mkIn b false).
Proof.
  intros n a b <-. unfold is_read. cbn [in_fail in_rest]. rewrite app_length. destruct (Nat.leb_spec (length a) (length a + length b)); [|lia].
  rewrite firstn_app, Nat.sub_diag, firstn_all, skipn_app, Nat.sub_diag, skipn_all. cbn. rewrite app_nil_r. reflexivity.
Qed.
Lemma u32_read : forall z rest, (0 <= z < 2 ^ 32)%Z -> read_u32 (mkIn (le_bytes 4 z ++ rest) false) = (Ok z, mkIn rest false).
Proof.
  intros z rest H. unfold read_u32. rewrite (read_app 4) by apply le_bytes_length. rewrite le_bytes_length. cbn [Nat.eqb].
  rewrite le_val_bytes; [reflexivity|]. exact H.
Qed.

Section Props.
Context {E : Type} (O : numops E) (C : codec E) (HC : codec_laws C).

Lemma enc_all_length : forall l, length (flat_map (c_enc C) l) = length l * c_size C.
Proof. induction l as [|x l IH]; cbn; auto. rewrite app_length, IH, (cl_len C HC). reflexivity. Qed.
Lemma chunks_enc : forall l rest, Forall (c_ok C) l -> map (c_dec C) (chunks C (length l) (flat_map (c_enc C) l ++ rest)) = l.
Proof.
  induction l as [|x l IH]; intros rest H; [reflexivity|]. inversion H as [|? ? Hx Hl]; subst. cbn [length chunks flat_map map]. rewrite <- app_assoc.
  rewrite <- (cl_len C HC x) at 1. rewrite firstn_app, Nat.sub_diag, firstn_all. cbn [firstn]. rewrite app_nil_r, (cl_dec C HC x Hx).
  rewrite <- (cl_len C HC x) at 1. rewrite skipn_app, Nat.sub_diag, skipn_all. cbn [skipn app]. rewrite IH; auto.
Qed.
Lemma chunks_length : forall n l, length (chunks C n l) = n.
Proof. induction n as [|n IH]; intros l; cbn; auto. Qed.

(** the class invariant of Matrix (Matrix.h:107-122) for a non-empty matrix *)
Definition valid_matrix (M : matrix E) : Prop :=
  1 <= m_rows M /\ 1 <= m_cols M /\ (Z.of_nat (m_rows M) <= 100000)%Z /\ (Z.of_nat (m_cols M) <= 100000)%Z /\ (Z.of_nat (m_rows M) * Z.of_nat (m_cols M) <= 100000000)%Z /\
  length (m_data M) = m_rows M * m_cols M.

(** what Resize leaves: the requested size, zero-filled unless the size did not change *)
Lemma resize_size : forall out r c, length (m_data out) = m_rows out * m_cols out -> 1 <= r -> 1 <= c -> (Z.of_nat r <= 100000)%Z -> (Z.of_nat c <= 100000)%Z -> (Z.of_nat r * Z.of_nat c <= 100000000)%Z ->
  exists d, mat_resize O out (Z.of_nat r) (Z.of_nat c) false = Ok (mkMat r c d) /\ length d = r * c /\ (d = repeat (n0 O) (r * c) \/ (d = m_data out /\ m_rows out = r /\ m_cols out = c)).
Proof.
  intros out r c HL H1 H2 H3 H4 H5. unfold mat_resize. destruct ((Z.of_nat r =? Z.of_nat (m_rows out))%Z && (Z.of_nat c =? Z.of_nat (m_cols out))%Z) eqn:EQ.
  - apply andb_true_iff in EQ. destruct EQ as [E1 E2]. apply Z.eqb_eq in E1, E2. apply Nat2Z.inj in E1, E2. exists (m_data out). subst r c. destruct out; cbn in *. split; auto.
  - replace ((Z.of_nat r <=? 0) || (Z.of_nat c <=? 0))%Z with false by (symmetry; apply orb_false_iff; split; apply Z.leb_gt; lia).
    rewrite !Nat2Z.id. unfold validate_dims.
    replace ((100000 <? Z.of_nat r) || (100000 <? Z.of_nat c))%Z with false by (symmetry; apply orb_false_iff; split; apply Z.ltb_ge; lia).
    replace (100000000 <? Z.of_nat r * Z.of_nat c)%Z with false by (symmetry; apply Z.ltb_ge; lia). cbn [bind].
    eexists. split; [reflexivity|]. split; [apply repeat_length|auto].
Qed.

Lemma header_bound : forall n, (Z.of_nat n <= 100000)%Z -> (0 <= Z.of_nat n < 2 ^ 32)%Z.
Proof. intros n H. split; [lia|]. apply Z.le_lt_trans with 100000%Z; [auto|reflexivity]. Qed.

(** a matrix written and read back into any matrix object *)
Theorem C20_roundtrip : forall M out trailing, valid_matrix M -> Forall (c_ok C) (m_data M) -> length (m_data out) = m_rows out * m_cols out ->
  load_matrix O C (save_matrix C M ++ trailing) out = Ok (true, M).
Proof.
  intros M out tr [V1 [V2 [V3 [V4 [V5 V6]]]]] HF HL. unfold save_matrix, load_matrix. rewrite <- !app_assoc.
  rewrite u32_read by (unfold MAGIC_MATRIX; lia). cbn [bind]. rewrite Z.eqb_refl. cbn [negb].
  rewrite u32_read by lia. cbn [bind]. rewrite Z.eqb_refl. cbn [negb].
  rewrite u32_read by (apply header_bound; auto). rewrite u32_read by (apply header_bound; auto).
  rewrite u32_read by (pose proof (cl_small C HC); lia). rewrite (read_app 4) by apply le_bytes_length. cbn [bind]. rewrite Z.eqb_refl. cbn [negb].
  replace ((Z.of_nat (m_rows M) =? 0) || (Z.of_nat (m_cols M) =? 0) || (100000 <? Z.of_nat (m_rows M)) || (100000 <? Z.of_nat (m_cols M)))%Z with false.
  2:{ symmetry. rewrite !orb_false_iff. repeat split; try apply Z.eqb_neq; try apply Z.ltb_ge; lia. }
  destruct (resize_size out (m_rows M) (m_cols M) HL V1 V2 V3 V4 V5) as [d [-> [Ld _]]]. cbn [bind m_rows m_cols m_data]. rewrite !Nat2Z.id.
  rewrite read_app by (rewrite enc_all_length, V6; reflexivity). unfold overwrite. rewrite Ld, <- V6, chunks_enc by auto. destruct M; reflexivity.
Qed.
(** the limits: matrices the loader refuses although they were written (the target is then untouched) *)
Theorem C20_limits : forall M out trailing, (Z.of_nat (m_rows M) < 2 ^ 32)%Z -> (Z.of_nat (m_cols M) < 2 ^ 32)%Z ->
  (m_rows M = 0 \/ m_cols M = 0 \/ (100000 < Z.of_nat (m_rows M))%Z \/ (100000 < Z.of_nat (m_cols M))%Z) ->
  load_matrix O C (save_matrix C M ++ trailing) out = Ok (false, out).
Proof.
  intros M out tr V1 V2 H. unfold save_matrix, load_matrix. rewrite <- !app_assoc.
  rewrite u32_read by (unfold MAGIC_MATRIX; lia). cbn [bind]. rewrite Z.eqb_refl. cbn [negb].
  rewrite u32_read by lia. cbn [bind]. rewrite Z.eqb_refl. cbn [negb].
  rewrite u32_read by lia. rewrite u32_read by lia.
  rewrite u32_read by (pose proof (cl_small C HC); lia). rewrite (read_app 4) by apply le_bytes_length. cbn [bind]. rewrite Z.eqb_refl. cbn [negb].
  replace ((Z.of_nat (m_rows M) =? 0) || (Z.of_nat (m_cols M) =? 0) || (100000 <? Z.of_nat (m_rows M)) || (100000 <? Z.of_nat (m_cols M)))%Z with true; [reflexivity|].
  symmetry. rewrite !orb_true_iff, !Z.eqb_eq, !Z.ltb_lt. lia.
Qed.

(** ** C21: any file *)
(** the 32-bit number at a position of the file *)
Definition u32_at (file : list Z) (pos : nat) : Z := le_val (firstn 4 (skipn pos file)).
Lemma read_at : forall file pos, pos + 4 <= length file -> read_u32 (mkIn (skipn pos file) false) = (Ok (u32_at file pos), mkIn (skipn (pos + 4) file) false).
Proof.
  intros file pos H. unfold read_u32, is_read. cbn [in_fail in_rest]. rewrite skipn_length. destruct (Nat.leb_spec 4 (length file - pos)); [|lia].
  rewrite firstn_length, skipn_length. replace (Nat.min 4 (length file - pos)) with 4 by lia. cbn [Nat.eqb]. rewrite skipn_skipn. unfold u32_at. replace (4 + pos) with (pos + 4) by lia. reflexivity.
Qed.
Lemma is_read_at : forall n file pos, pos + n <= length file -> is_read n (mkIn (skipn pos file) false) = (firstn n (skipn pos file), mkIn (skipn (pos + n) file) false).
Proof.
  intros n file pos H. unfold is_read. cbn [in_fail in_rest]. rewrite skipn_length. destruct (Nat.leb_spec n (length file - pos)); [|lia]. rewrite skipn_skipn. replace (n + pos) with (pos + n) by lia. reflexivity.
Qed.
Lemma u32_nonneg : forall file pos, Forall (fun b => 0 <= b < 256)%Z file -> (0 <= u32_at file pos)%Z.
Proof.
  intros file pos H. unfold u32_at. apply le_val_bound. apply Forall_forall. intros b Hb. rewrite Forall_forall in H. apply H.
  rewrite <- (firstn_skipn pos file). apply in_or_app. right. rewrite <- (firstn_skipn 4 (skipn pos file)). apply in_or_app. auto.
Qed.

(** the header the format documents *)
Definition good_header (file : list Z) (r c : nat) : Prop :=
  u32_at file 0 = 1296911437%Z /\ u32_at file 4 = 1%Z /\ u32_at file 8 = Z.of_nat r /\ u32_at file 12 = Z.of_nat c /\ u32_at file 16 = Z.of_nat (c_size C) /\
  1 <= r /\ 1 <= c /\ (Z.of_nat r <= 100000)%Z /\ (Z.of_nat c <= 100000)%Z.

(** a file that has at least a header is either refused, leaving the target alone, or has a good header; then the result
    has the size of the header (at most 10^8 elements, otherwise an exception) and, if the file is long enough, every
    element is the one stored in the file *)
Theorem C21_any_file : forall file out, Forall (fun b => 0 <= b < 256)%Z file -> 24 <= length file -> length (m_data out) = m_rows out * m_cols out ->
  (load_matrix O C file out = Ok (false, out) /\ forall r c, ~ good_header file r c) \/
  (exists r c, good_header file r c /\
    ((100000000 < Z.of_nat r * Z.of_nat c)%Z /\ (m_rows out <> r \/ m_cols out <> c) /\ load_matrix O C file out = Throw BadAlloc \/
     exists d, load_matrix O C file out = Ok (true, mkMat r c d) /\ length d = r * c /\
      (24 + r * c * c_size C <= length file -> forall k, k < r * c -> exists e, nth_error d k = Some e /\ e = c_dec C (firstn (c_size C) (skipn (24 + k * c_size C) file))))).
Proof.
  intros file out HB HL HO. unfold load_matrix.
  change (mkIn file false) with (mkIn (skipn 0 file) false). rewrite read_at by lia. cbn [bind Nat.add]. unfold good_header.
  destruct (Z.eqb_spec (u32_at file 0) MAGIC_MATRIX) as [M0|M0]; cbn [negb]; [|left; split; [reflexivity|intros r c (A & _); apply M0, A]].
  rewrite read_at by lia. cbn [bind Nat.add].
  destruct (Z.eqb_spec (u32_at file 4) 1) as [M1|M1]; cbn [negb]; [|left; split; [reflexivity|intros r c (_ & A & _); apply M1, A]].
  rewrite read_at by lia. cbn [Nat.add]. rewrite read_at by lia. cbn [Nat.add]. rewrite read_at by lia. cbn [Nat.add]. rewrite is_read_at by lia. cbn [bind Nat.add].
  destruct (Z.eqb_spec (u32_at file 16) (Z.of_nat (c_size C))) as [M4|M4]; cbn [negb]; [|left; split; [reflexivity|intros r c (_ & _ & _ & _ & A & _); apply M4, A]].
  pose proof (u32_nonneg file 8 HB) as P8. pose proof (u32_nonneg file 12 HB) as P12.
  destruct ((u32_at file 8 =? 0) || (u32_at file 12 =? 0) || (100000 <? u32_at file 8) || (100000 <? u32_at file 12))%Z eqn:EL.
  { left. split; [reflexivity|]. intros r c (_ & _ & A & B & _ & A1 & B1 & A2 & B2). rewrite A, B in EL. rewrite !orb_true_iff, !Z.eqb_eq, !Z.ltb_lt in EL. lia. }
  rewrite !orb_false_iff, !Z.eqb_neq, !Z.ltb_ge in EL. destruct EL as [[[L1 L2] L3] L4]. right.
  set (r := Z.to_nat (u32_at file 8)). set (c := Z.to_nat (u32_at file 12)). assert (Er : u32_at file 8 = Z.of_nat r) by (unfold r; lia). assert (Ec : u32_at file 12 = Z.of_nat c) by (unfold c; lia).
  exists r, c. split. { repeat split; auto; lia. }
  rewrite Er, Ec in *. clearbody r c.
  destruct (Z.le_gt_cases (Z.of_nat r * Z.of_nat c) 100000000) as [B|B].
  - right. destruct (resize_size out r c HO) as [d0 [-> [Ld _]]]; try lia. cbn [bind m_rows m_cols m_data]. rewrite ?Nat2Z.id.
    destruct (is_read (r * c * c_size C) (mkIn (skipn 24 file) false)) as [bs st] eqn:ER. eexists. split; [reflexivity|]. unfold overwrite. split; [rewrite map_length, chunks_length; auto|].
    intros HF k Hk. rewrite is_read_at in ER by lia. apply (f_equal fst) in ER. change (firstn (r * c * c_size C) (skipn 24 file) = bs) in ER. subst bs. rewrite Ld.
    assert (CH : forall n l k, k < n -> n * c_size C <= length l -> nth_error (chunks C n l) k = Some (firstn (c_size C) (skipn (k * c_size C) l))).
    { clear. induction n as [|n IH]; intros l k Hk Hn; [lia|]. destruct k as [|k]; cbn [chunks nth_error]; [reflexivity|]. rewrite IH; [|lia|rewrite skipn_length; cbn in Hn; lia].
      rewrite skipn_skipn. do 3 f_equal. cbn. lia. }
    assert (LB : length (firstn (r * c * c_size C) (skipn 24 file)) = r * c * c_size C) by (rewrite firstn_length, skipn_length; lia).
    eexists. split; [|reflexivity]. erewrite map_nth_error; [reflexivity|]. rewrite CH; [|auto|rewrite app_length, LB; apply Nat.le_add_r]. f_equal.
    assert (KB : k * c_size C + c_size C <= r * c * c_size C) by nia.
    rewrite skipn_app, firstn_app. rewrite skipn_length, LB.
    replace (c_size C - (r * c * c_size C - k * c_size C)) with 0 by lia. cbn [firstn]. rewrite app_nil_r.
    rewrite skipn_firstn_comm, firstn_firstn, skipn_skipn. f_equal; [lia|f_equal; lia].
  - unfold mat_resize. destruct ((Z.of_nat r =? Z.of_nat (m_rows out))%Z && (Z.of_nat c =? Z.of_nat (m_cols out))%Z) eqn:EQ.
    + right. apply andb_true_iff in EQ. destruct EQ as [E1 E2]. apply Z.eqb_eq in E1, E2. apply Nat2Z.inj in E1, E2. cbn [bind].
      destruct (is_read (r * c * c_size C) (mkIn (skipn 24 file) false)) as [bs st] eqn:ER. rewrite <- E1, <- E2. eexists. split; [reflexivity|]. unfold overwrite. split; [rewrite map_length, chunks_length, HO; congruence|].
      intros HF k Hk. rewrite is_read_at in ER by lia. apply (f_equal fst) in ER. change (firstn (r * c * c_size C) (skipn 24 file) = bs) in ER. subst bs. rewrite HO, <- E1, <- E2.
      assert (CH : forall n l k, k < n -> n * c_size C <= length l -> nth_error (chunks C n l) k = Some (firstn (c_size C) (skipn (k * c_size C) l))).
      { clear. induction n as [|n IH]; intros l k Hk Hn; [lia|]. destruct k as [|k]; cbn [chunks nth_error]; [reflexivity|]. rewrite IH; [|lia|rewrite skipn_length; cbn in Hn; lia].
        rewrite skipn_skipn. do 3 f_equal. cbn. lia. }
      assert (LB : length (firstn (r * c * c_size C) (skipn 24 file)) = r * c * c_size C) by (rewrite firstn_length, skipn_length; lia).
      eexists. split; [|reflexivity]. erewrite map_nth_error; [reflexivity|]. rewrite CH; [|auto|rewrite app_length, LB; apply Nat.le_add_r]. f_equal.
      assert (KB : k * c_size C + c_size C <= r * c * c_size C) by nia.
      rewrite skipn_app, firstn_app. rewrite skipn_length, LB.
      replace (c_size C - (r * c * c_size C - k * c_size C)) with 0 by lia. cbn [firstn]. rewrite app_nil_r.
      rewrite skipn_firstn_comm, firstn_firstn, skipn_skipn. f_equal; [lia|f_equal; lia].
    + left. split; [auto|]. apply andb_false_iff in EQ. split; [destruct EQ as [EQ|EQ]; apply Z.eqb_neq in EQ; [left|right]; intros G; apply EQ; congruence|].
      replace ((Z.of_nat r <=? 0) || (Z.of_nat c <=? 0))%Z with false by (symmetry; apply orb_false_iff; split; apply Z.leb_gt; lia). rewrite !Nat2Z.id. unfold validate_dims.
      replace ((100000 <? Z.of_nat r) || (100000 <? Z.of_nat c))%Z with false by (symmetry; apply orb_false_iff; split; apply Z.ltb_ge; lia).
      replace (100000000 <? Z.of_nat r * Z.of_nat c)%Z with true by (symmetry; apply Z.ltb_lt; lia). reflexivity.
Qed.

(** ** C22: complex vectors *)
Lemma read_elems_enc : forall l rest, Forall (c_ok C) l -> read_elems O C (length l) (mkIn (flat_map (c_enc C) l ++ rest) false) = (l, mkIn rest false).
Proof.
  induction l as [|x l IH]; intros rest H; [reflexivity|]. inversion H as [|? ? Hx Hl]; subst. cbn [length read_elems flat_map]. rewrite <- app_assoc.
  rewrite read_app by apply (cl_len C HC). rewrite IH by auto. rewrite (cl_len C HC x). rewrite <- (cl_len C HC (n0 O)), skipn_all, app_nil_r, (cl_dec C HC x Hx). reflexivity.
Qed.
Lemma flat_map_map : forall {A B D} (f : A -> B) (g : B -> list D) l, flat_map g (map f l) = flat_map (fun x => g (f x)) l.
Proof. intros A B D f g l. induction l as [|x l IH]; cbn; congruence. Qed.
Lemma combine_parts : forall {A B} (v : list (A * B)), combine (map fst v) (map snd v) = v.
Proof. intros A B v. induction v as [|[x y] v IH]; cbn; congruence. Qed.

Theorem C22_roundtrip : forall v out trailing, (Z.of_nat (length v) < 2 ^ 32)%Z -> Forall (fun p => c_ok C (fst p) /\ c_ok C (snd p)) v ->
  load_complex O C (save_complex C v ++ trailing) out = Ok (true, v).
Proof.
  intros v out tr HL HF. unfold save_complex, load_complex. rewrite <- !app_assoc.
  rewrite u32_read by (unfold MAGIC_COMPLEX; lia). cbn [bind]. rewrite Z.eqb_refl. cbn [negb].
  rewrite u32_read by lia. cbn [bind]. rewrite Z.eqb_refl. cbn [negb].
  rewrite u32_read by lia. rewrite u32_read by (pose proof (cl_small C HC); lia). cbn [bind]. rewrite Z.eqb_refl. cbn [negb in_rest].
  assert (F1 : flat_map (fun p => c_enc C (fst p)) v = flat_map (c_enc C) (map fst v)) by (symmetry; apply flat_map_map).
  assert (F2 : flat_map (fun p => c_enc C (snd p)) v = flat_map (c_enc C) (map snd v)) by (symmetry; apply flat_map_map).
  rewrite F1, F2. rewrite !app_length, !enc_all_length, !map_length.
  match goal with |- (if ?b then _ else _) = _ => replace b with false by (symmetry; apply Z.ltb_ge; lia) end.
  rewrite Nat2Z.id. rewrite <- (map_length fst v) at 1. rewrite read_elems_enc. 2:{ apply Forall_map. eapply Forall_impl; [|exact HF]. intros a [HA _]; exact HA. }
  rewrite <- (map_length snd v). rewrite read_elems_enc. 2:{ apply Forall_map. eapply Forall_impl; [|exact HF]. intros a [_ HA]; exact HA. }
  rewrite combine_parts. reflexivity.
Qed.
Lemma c_sz : c_size C - length (c_enc C (n0 O)) = 0.
Proof. rewrite (cl_len C HC). lia. Qed.
Lemma read_elems_at : forall n file pos, pos + n * c_size C <= length file ->
  read_elems O C n (mkIn (skipn pos file) false) = (map (fun k => c_dec C (firstn (c_size C) (skipn (pos + k * c_size C) file))) (seq 0 n), mkIn (skipn (pos + n * c_size C) file) false).
Proof.
  induction n as [|n IH]; intros file pos H; cbn [read_elems seq map]. { rewrite Nat.add_0_r. reflexivity. }
  rewrite is_read_at by (cbn in H; lia). rewrite IH by (cbn in H; lia). f_equal.
  - f_equal.
    + rewrite firstn_length, skipn_length. replace (Nat.min (c_size C) (length file - pos)) with (length (c_enc C (n0 O))) by (rewrite (cl_len C HC); cbn in H; lia).
      rewrite skipn_all, app_nil_r. do 3 f_equal. lia.
    + rewrite <- seq_shift, map_map. apply map_ext. intros k. do 3 f_equal. cbn. lia.
  - do 2 f_equal. cbn. lia.
Qed.
Definition good_complex_header (file : list Z) (n : nat) : Prop :=
  u32_at file 0 = 1296911427%Z /\ u32_at file 4 = 1%Z /\ u32_at file 8 = Z.of_nat n /\ u32_at file 12 = Z.of_nat (c_size C).
Definition elem_at (file : list Z) (pos : nat) : E := c_dec C (firstn (c_size C) (skipn pos file)).
(** any file with at least a header: accepted exactly if the header is good and the data is complete, and then every
    part of every element is the one stored in the file; otherwise refused, leaving the target alone *)
Theorem C22_any_file : forall file out, Forall (fun b => 0 <= b < 256)%Z file -> 16 <= length file ->
  (load_complex O C file out = Ok (false, out) /\ forall n, good_complex_header file n -> length file < 16 + 2 * n * c_size C) \/
  (exists n, good_complex_header file n /\ 16 + 2 * n * c_size C <= length file /\
     load_complex O C file out = Ok (true, map (fun k => (elem_at file (16 + k * c_size C), elem_at file (16 + (n + k) * c_size C))) (seq 0 n))).
Proof.
  intros file out HB HL. unfold load_complex.
  change (mkIn file false) with (mkIn (skipn 0 file) false). rewrite read_at by lia. cbn [bind Nat.add]. unfold good_complex_header.
  destruct (Z.eqb_spec (u32_at file 0) MAGIC_COMPLEX) as [M0|M0]; cbn [negb]; [|left; split; [reflexivity|intros n (A & _); destruct (M0 A)]].
  rewrite read_at by lia. cbn [bind Nat.add].
  destruct (Z.eqb_spec (u32_at file 4) 1) as [M1|M1]; cbn [negb]; [|left; split; [reflexivity|intros n (_ & A & _); destruct (M1 A)]].
  rewrite read_at by lia. cbn [Nat.add]. rewrite read_at by lia. cbn [Nat.add bind].
  destruct (Z.eqb_spec (u32_at file 12) (Z.of_nat (c_size C))) as [M4|M4]; cbn [negb]; [|left; split; [reflexivity|intros n (_ & _ & _ & A); destruct (M4 A)]].
  pose proof (u32_nonneg file 8 HB) as P8. cbn [in_rest]. rewrite skipn_length.
  set (n := Z.to_nat (u32_at file 8)). assert (En : u32_at file 8 = Z.of_nat n) by (unfold n; lia). rewrite En, M4 in *. clearbody n.
  destruct (Z.ltb_spec (Z.of_nat (length file - 16)) (Z.of_nat n * Z.of_nat (c_size C) * 2)) as [G|G].
  - left. split; [reflexivity|]. intros m (_ & _ & A & _). apply Nat2Z.inj in A. subst m. nia.
  - right. exists n. split; [auto|]. split; [nia|]. assert (HN : 16 + 2 * n * c_size C <= length file) by nia. rewrite !read_elems_at by nia. do 2 f_equal. f_equal.
    unfold elem_at. generalize (seq 0 n). intros l. induction l as [|k l IH]; [reflexivity|]. cbn [map combine]. rewrite IH. do 2 f_equal. f_equal. f_equal. f_equal. lia.
Qed.
(** real vectors stored as complex ones *)
Theorem C22_real_roundtrip : forall v out trailing, (Z.of_nat (length v) < 2 ^ 32)%Z -> Forall (c_ok C) v -> c_ok C (n0 O) ->
  load_complex_as_real O C (save_real_as_complex O C v ++ trailing) out = Ok (true, v).
Proof.
  intros v out tr HL HF H0. unfold load_complex_as_real, save_real_as_complex. rewrite C22_roundtrip.
  - cbn [bind]. rewrite map_map. cbn [fst]. rewrite map_id. reflexivity.
  - rewrite map_length; auto.
  - apply Forall_map. eapply Forall_impl; [|exact HF]. cbn. auto.
Qed.
End Props.

(** ** The 64-bit patterns of doubles *)
Definition Z64 : codec Z := mkCodec Z 8 (le_bytes 8) le_val (fun z => 0 <= z < 2 ^ 64)%Z.
Lemma Z64_laws : codec_laws Z64.
Proof.
  split; cbn [c_size c_enc c_dec c_ok Z64].
  - lia.
  - reflexivity.
  - intros e. apply le_bytes_length.
  - intros e H. apply le_val_bytes. exact H.
Qed.
Print Assumptions C20_roundtrip.
Print Assumptions C20_limits.
Print Assumptions C21_any_file.
Print Assumptions C22_roundtrip.
Print Assumptions C22_any_file.
Print Assumptions C22_real_roundtrip.

(** 1.0, 2.0, a NaN and the largest finite double *)
Definition exM : matrix Z := mkMat 2 2 [4607182418800017408; 4611686018427387904; 9221120237041090561; 9218868437227405311]%Z.
Example C20_valid : valid_matrix exM /\ Forall (c_ok Z64) (m_data exM).
Proof. split; [unfold valid_matrix, exM; cbn; lia|]. unfold exM; cbn. repeat constructor; cbn; lia. Qed.
Example C20_computed : load_matrix Znum Z64 (save_matrix Z64 exM) (mkMat 1 3 [7; 7; 7]%Z) = Ok (true, exM) /\ length (save_matrix Z64 exM) = 56.
Proof. vm_compute. auto. Qed.
Example C20_empty_not_loaded : load_matrix Znum Z64 (save_matrix Z64 (mkMat 0 0 [])) exM = Ok (false, exM).
Proof. vm_compute. auto. Qed.
Example C22_computed : load_complex Znum Z64 (save_complex Z64 [(1, 2); (3, 4); (5, 6)]%Z) [] = Ok (true, [(1, 2); (3, 4); (5, 6)]%Z) /\
  load_complex Znum Z64 (removelast (save_complex Z64 [(1, 2); (3, 4); (5, 6)]%Z)) [] = Ok (false, []).
Proof. vm_compute. auto. Qed.

(** C21 as one would expect it (success means that every element came from the file) is false: a file cut off after the
    header, or anywhere in the data, is loaded "successfully", with zeros -- or whatever the target held -- in place of the
    lost elements *)
Theorem C21_truncated_refuted :
  load_matrix Znum Z64 (firstn 24 (save_matrix Z64 exM)) (mkMat 0 0 []) = Ok (true, mkMat 2 2 [0; 0; 0; 0]%Z) /\
  load_matrix Znum Z64 (firstn 40 (save_matrix Z64 exM)) (mkMat 2 2 [5; 6; 7; 8]%Z) = Ok (true, mkMat 2 2 [4607182418800017408; 4611686018427387904; 7; 8]%Z).
Proof. vm_compute. auto. Qed.
(** and a file shorter than the header makes the loader decide on indeterminate values, which is undefined *)
Theorem C21_short_refuted : load_matrix Znum Z64 [] (mkMat 0 0 []) = UB /\ load_matrix Znum Z64 (firstn 6 (save_matrix Z64 exM)) (mkMat 0 0 []) = UB /\
  load_complex Znum Z64 [] [] = UB.
Proof. vm_compute. auto. Qed.
Print Assumptions C21_truncated_refuted.
Print Assumptions C21_short_refuted.
