(** * C44: building, slicing and updating matrices *)

From Coq Require Import List Arith Bool Lia ZArith.
From Verif Require Import Base Num Mat_Model Mat_Proofs Mat_Props.
Import ListNotations.
Local Open Scope nat_scope.

Section C44.
Context {T : Type} (O : numops T).
Implicit Types (A B : matrix T) (f g : nat -> nat -> T).

(** ** Checked access *)
Theorem C44_at : forall A r c f i j x, is_matrix A r c f ->
  ((0 <= i < Z.of_nat r /\ 0 <= j < Z.of_nat c)%Z ->
     mat_at A i j = Ok (f (Z.to_nat i) (Z.to_nat j)) /\
     exists A', mat_at_set A i j x = Ok A' /\ is_matrix A' r c (fun a b => if (a =? Z.to_nat i) && (b =? Z.to_nat j) then x else f a b)) /\
  (~ (0 <= i < Z.of_nat r /\ 0 <= j < Z.of_nat c)%Z -> mat_at A i j = Throw IndexError /\ mat_at_set A i j x = Throw IndexError).
Proof.
  intros A r c f i j x HA. pose proof HA as (HR & HC & _). unfold mat_at, mat_at_set. rewrite HR, HC. split; intros H.
  - assert (E : ((i <? 0) || (Z.of_nat r <=? i) || (j <? 0) || (Z.of_nat c <=? j))%Z = false).
    { destruct (Z.ltb_spec i 0), (Z.leb_spec (Z.of_nat r) i), (Z.ltb_spec j 0), (Z.leb_spec (Z.of_nat c) j); try lia; reflexivity. }
    rewrite E. split; [eapply mget_Ok; eauto; lia|]. apply wp_ex. eapply mset_wp; eauto; try lia.
  - assert (E : ((i <? 0) || (Z.of_nat r <=? i) || (j <? 0) || (Z.of_nat c <=? j))%Z = true).
    { destruct (Z.ltb_spec i 0), (Z.leb_spec (Z.of_nat r) i), (Z.ltb_spec j 0), (Z.leb_spec (Z.of_nat c) j); try reflexivity; exfalso; apply H; lia. }
    rewrite E. auto.
Qed.

(** ** Construction *)
Theorem C44_new : forall rows cols x, (0 < rows)%Z -> (0 < cols)%Z -> dims_fit (Z.to_nat rows) (Z.to_nat cols) ->
  (exists A, mat_new O rows cols = Ok A /\ is_matrix A (Z.to_nat rows) (Z.to_nat cols) (fun _ _ => n0 O)) /\
  (exists A, mat_new_val rows cols x = Ok A /\ is_matrix A (Z.to_nat rows) (Z.to_nat cols) (fun _ _ => x)).
Proof.
  intros rows cols x H1 H2 HD. unfold mat_new, mat_new_val. destruct (Z.ltb_spec rows 0); [lia|]. destruct (Z.ltb_spec cols 0); [lia|]. cbn [orb].
  split; apply wp_ex, alloc_ok_wp; auto; split; auto; lia.
Qed.
(** sizes that cannot be met are refused by every sized constructor, before anything is stored *)
Theorem C44_bad_size : forall rows cols (x : T) (values : list T) (strict : bool),
  ((rows < 0 \/ cols < 0)%Z \/ (0 < rows /\ 0 < cols /\ ~ dims_fit (Z.to_nat rows) (Z.to_nat cols))%Z) ->
  exists e, (e = DimensionError \/ e = BadAlloc) /\ mat_new O rows cols = Throw e /\ mat_new_val rows cols x = Throw e /\ mat_of_list O rows cols values strict = Throw e.
Proof.
  intros rows cols x values strict H. unfold mat_new, mat_new_val, mat_of_list. destruct (Z.ltb_spec rows 0); [exists DimensionError; auto|]. destruct (Z.ltb_spec cols 0); [exists DimensionError; auto|]. cbn [orb].
  destruct H as [H|(P1 & P2 & H)]; [lia|]. unfold mat_alloc. cbv zeta. destruct (Nat.eqb_spec (Z.to_nat rows) 0); [lia|]. destruct (Nat.eqb_spec (Z.to_nat cols) 0); [lia|]. cbn [orb]. unfold validate_dims.
  destruct (Z.ltb_spec 100000 (Z.of_nat (Z.to_nat rows))); [exists DimensionError; auto|]. destruct (Z.ltb_spec 100000 (Z.of_nat (Z.to_nat cols))); [exists DimensionError; auto|]. cbv beta iota delta [orb].
  destruct (Z.ltb_spec 100000000 (Z.of_nat (Z.to_nat rows) * Z.of_nat (Z.to_nat cols))); [exists BadAlloc; auto|]. exfalso. apply H. unfold dims_fit. lia.
Qed.
Lemma flat_nth : forall (l : list (list T)) c, Forall (fun row => length row = c) l -> length (concat l) = length l * c /\
  forall i j row, nth_error l i = Some row -> j < c -> nth_error (concat l) (i * c + j) = nth_error row j.
Proof.
  intros l c H. induction H as [|row l HR _ [IH1 IH2]]; [split; [reflexivity|intros [] ? ? X; discriminate]|]. cbn [concat length]. split; [rewrite app_length; lia|].
  intros [|i] j row' HI HJ; cbn [nth_error] in HI.
  - injection HI as <-. rewrite nth_error_app1 by lia. reflexivity.
  - rewrite nth_error_app2 by lia. rewrite <- (IH2 i j row' HI HJ). f_equal. lia.
Qed.
(** from a vector of rows: they must have the same length *)
Theorem C44_of_rows : forall (rows : list (list T)) c d, 0 < c -> length (hd [] rows) = c -> dims_fit (length rows) c ->
  (Forall (fun row => length row = c) rows -> exists A, mat_of_rows rows = Ok A /\ is_matrix A (length rows) c (fun i j => nth j (nth i rows []) d)) /\
  (~ Forall (fun row => length row = c) rows -> mat_of_rows rows = Throw DimensionError).
Proof.
  intros rows c d HC HH HD. destruct rows as [|r0 rest] eqn:ER; [cbn in HH; lia|]. cbn [hd] in HH. rewrite <- ER in *.
  assert (EM : mat_of_rows rows = (_ <- validate_dims (length rows) c ;; data <- for_each (fun acc row => if Nat.eqb (length row) c then Ok (acc ++ row) else Throw DimensionError) rows [] ;; Ok (mkMat (length rows) c data))).
  { rewrite ER. destruct r0 as [|t r0]; [cbn in HH; lia|]. unfold mat_of_rows. cbv zeta. rewrite HH. reflexivity. }
  rewrite EM. clear EM.
  assert (EV : validate_dims (length rows) c = Ok tt).
  { destruct HD as (F1 & F2 & F3). unfold validate_dims. destruct (Z.ltb_spec 100000 (Z.of_nat (length rows))); [lia|]. destruct (Z.ltb_spec 100000 (Z.of_nat c)); [lia|]. cbv beta iota delta [orb].
    destruct (Z.ltb_spec 100000000 (Z.of_nat (length rows) * Z.of_nat c)); [lia|reflexivity]. }
  rewrite EV. cbn [bind]. clear EV HD HH ER.
  assert (G : forall l acc, (Forall (fun row => length row = c) l -> for_each (fun acc row => if Nat.eqb (length row) c then Ok (acc ++ row) else Throw DimensionError) l acc = Ok (acc ++ concat l)) /\
     (~ Forall (fun row => length row = c) l -> for_each (fun acc row => if Nat.eqb (length row) c then Ok (acc ++ row) else Throw DimensionError) l acc = @Throw (list T) DimensionError)).
  { induction l as [|row l IH]; intros acc; cbn [for_each concat]; [split; [rewrite app_nil_r; auto|intros X; destruct X; constructor]|].
    destruct (Nat.eqb_spec (length row) c) as [E|NE]; cbn [bind].
    - destruct (IH (acc ++ row)) as [I1 I2]. split; [intros HF; inversion HF; subst; rewrite I1, app_assoc by auto; reflexivity|]. intros HF. apply I2. intros X. apply HF. constructor; auto.
    - split; [intros HF; inversion HF; contradiction|reflexivity]. }
  destruct (G rows []) as [G1 G2]. split; intros HF.
  - rewrite G1 by auto. cbn [bind app]. eexists. split; [reflexivity|]. destruct (flat_nth rows c HF) as [F1 F2]. split; [reflexivity|]. split; [reflexivity|]. split; [exact F1|].
    intros i j HI HJ. cbn [m_data]. destruct (nth_error_lt _ rows i HI) as [row HR]. rewrite (F2 i j row HR HJ). rewrite (nth_error_nth _ _ [] HR). apply nth_error_nth'. rewrite Forall_forall in HF. rewrite (HF row); auto. eapply nth_error_In; eauto.
  - rewrite G2 by auto. reflexivity.
Qed.
(** from a list of values, row by row: a strict list must have exactly the right length, otherwise it is cut or zero-filled *)
Theorem C44_of_list : forall rows cols (values : list T) (strict : bool), (0 < rows)%Z -> (0 < cols)%Z -> dims_fit (Z.to_nat rows) (Z.to_nat cols) ->
  (strict = false \/ length values = Z.to_nat rows * Z.to_nat cols -> exists A, mat_of_list O rows cols values strict = Ok A /\
     is_matrix A (Z.to_nat rows) (Z.to_nat cols) (fun i j => nth (i * Z.to_nat cols + j) values (n0 O))) /\
  (strict = true -> length values <> Z.to_nat rows * Z.to_nat cols -> mat_of_list O rows cols values strict = Throw DimensionError).
Proof.
  intros rows cols values strict H1 H2 HD. unfold mat_of_list. destruct (Z.ltb_spec rows 0); [lia|]. destruct (Z.ltb_spec cols 0); [lia|]. cbn [orb].
  set (r := Z.to_nat rows) in *. set (c := Z.to_nat cols) in *. assert (HR : 0 < r) by lia. assert (HC : 0 < c) by lia. clearbody r c. cbv zeta.
  destruct (Nat.eqb_spec r 0); [lia|]. destruct (Nat.eqb_spec c 0); [lia|]. cbn [orb].
  assert (EV : validate_dims r c = Ok tt).
  { destruct HD as (F1 & F2 & F3). unfold validate_dims. destruct (Z.ltb_spec 100000 (Z.of_nat r)); [lia|]. destruct (Z.ltb_spec 100000 (Z.of_nat c)); [lia|]. cbv beta iota delta [orb].
    destruct (Z.ltb_spec 100000000 (Z.of_nat r * Z.of_nat c)); [lia|reflexivity]. }
  rewrite EV. cbn [bind]. split.
  - intros HS. assert (E : strict && negb (length values =? r * c) = false) by (destruct HS as [->| ->]; [reflexivity|rewrite Nat.eqb_refl; apply andb_false_r]). rewrite E.
    eexists. split; [reflexivity|]. split; [reflexivity|]. split; [reflexivity|]. split; [cbn [m_data]; rewrite firstn_length, app_length, repeat_length; lia|].
    intros i j HI HJ. cbn [m_data]. pose proof (idx_lt r c i j HI HJ) as HL. set (k := i * c + j) in *. clearbody k.
    assert (G : forall (l : list T) n m, m < n -> nth_error (firstn n l) m = nth_error l m) by (induction l as [|x l IH]; intros [|n0'] [|m] HM; cbn; auto; try lia; apply IH; lia).
    rewrite G by auto. destruct (Nat.lt_ge_cases k (length values)) as [HK|HK].
    + rewrite nth_error_app1 by auto. apply nth_error_nth'. auto.
    + rewrite nth_error_app2 by auto. rewrite nth_overflow by auto. apply nth_error_repeat. lia.
  - intros -> HN. apply Nat.eqb_neq in HN. rewrite HN. reflexivity.
Qed.
Theorem C44_identity : forall dim, (0 < dim)%Z -> dims_fit (Z.to_nat dim) (Z.to_nat dim) ->
  exists A, mat_identity O dim = Ok A /\ is_matrix A (Z.to_nat dim) (Z.to_nat dim) (fun i j => if i =? j then n1 O else n0 O).
Proof.
  intros dim H HD. apply wp_ex. unfold mat_identity. destruct (Z.leb_spec dim 0); [lia|]. apply wp_bind. destruct (C44_new dim dim (n0 O) H H HD) as [(A & E & HA) _]. rewrite E. cbn [wp].
  unfold mat_make_unit. pose proof HA as (HR & HC & HL & _). rewrite HR, HC, Nat.eqb_refl. cbn [negb]. set (n := Z.to_nat dim) in *. clearbody n.
  eapply wp_conseq; [|apply (for_range_inv _ _ (fun k A => is_matrix A n n (fun i j => if (i =? j) && (i <? k) then n1 O else n0 O)))].
  - intros A' HA'. eapply is_matrix_ext; [exact HA'|]. intros i j HI HJ. cbv beta. destruct (Nat.ltb_spec i n); [|lia]. rewrite andb_true_r. reflexivity.
  - lia.
  - split; [reflexivity|]. split; [reflexivity|]. split; [cbn [m_data]; rewrite repeat_length; auto|]. intros i j HI HJ. cbn [m_data]. rewrite nth_error_repeat by (rewrite HL; apply idx_lt; auto). rewrite andb_false_r. reflexivity.
  - intros k A' _ HK HA'. cbv beta in HA'. eapply mset_wp; eauto. intros A'' HA''. eapply is_matrix_ext; [exact HA''|]. intros i j HI HJ. unfold fset. cbv beta.
    destruct (Nat.eqb_spec i k), (Nat.eqb_spec j k), (Nat.eqb_spec i j), (Nat.ltb_spec i k), (Nat.ltb_spec i (k + 1)); cbn [andb]; try reflexivity; lia.
Qed.
Theorem C44_diagonal : forall d, d <> [] -> dims_fit (length d) (length d) ->
  exists A, mat_diagonal O d = Ok A /\ is_matrix A (length d) (length d) (fun i j => if i =? j then nth i d (n0 O) else n0 O).
Proof.
  intros d NE HD. apply wp_ex. unfold mat_diagonal. cbv zeta. assert (0 < length d) by (destruct d; [now destruct NE|cbn; lia]). destruct (Nat.eqb_spec (length d) 0); [lia|].
  apply wp_bind. apply alloc_ok_wp; [split; auto; tauto|]. intros A HA.
  eapply wp_conseq; [|apply (for_range_inv _ _ (fun k A => is_matrix A (length d) (length d) (fun i j => if (i =? j) && (i <? k) then nth i d (n0 O) else n0 O)))].
  - intros A' HA'. eapply is_matrix_ext; [exact HA'|]. intros i j HI HJ. cbv beta. destruct (Nat.ltb_spec i (length d)); [|lia]. rewrite andb_true_r. reflexivity.
  - lia.
  - eapply is_matrix_ext; [exact HA|]. intros i j HI HJ. cbv beta. rewrite andb_false_r. reflexivity.
  - intros k A' _ HK HA'. cbv beta in HA'. apply wp_bind. eapply vgetf_wp; [apply (is_vector_self d (n0 O))|auto|]. eapply mset_wp; eauto. intros A'' HA''. eapply is_matrix_ext; [exact HA''|]. intros i j HI HJ. unfold fset. cbv beta.
    destruct (Nat.eqb_spec i k), (Nat.eqb_spec j k), (Nat.eqb_spec i j), (Nat.ltb_spec i k), (Nat.ltb_spec i (k + 1)); cbn [andb]; subst; try reflexivity; try lia.
Qed.

(** ** Slices *)
Theorem C44_row_col : forall A r c f i, is_matrix A r c f ->
  ((0 <= i < Z.of_nat r)%Z -> exists v, mat_row O A i = Ok v /\ is_vector v c (fun j => f (Z.to_nat i) j)) /\
  (~ (0 <= i < Z.of_nat r)%Z -> mat_row O A i = Throw IndexError) /\
  ((0 <= i < Z.of_nat c)%Z -> exists v, mat_col O A i = Ok v /\ is_vector v r (fun j => f j (Z.to_nat i))) /\
  (~ (0 <= i < Z.of_nat c)%Z -> mat_col O A i = Throw IndexError) /\
  (r = c -> exists v, mat_diag O A = Ok v /\ is_vector v r (fun j => f j j)) /\
  (r <> c -> mat_diag O A = Throw DimensionError).
Proof.
  intros A r c f i HA. pose proof HA as (HR & HC & _). unfold mat_row, mat_col, mat_diag. rewrite HR, HC. split; [|split; [|split; [|split; [|split]]]].
  - intros H. destruct (Z.ltb_spec i 0); [lia|]. destruct (Z.leb_spec (Z.of_nat r) i); [lia|]. cbn [orb]. apply wp_ex. eapply (vfill_wp (fun k => mget A (Z.to_nat i) k)); [apply is_vector_repeat| |intros v' HV'; exact HV']. intros j HJ. eapply mget_wp; eauto. lia.
  - intros H. destruct (Z.ltb_spec i 0); [reflexivity|]. destruct (Z.leb_spec (Z.of_nat r) i); [reflexivity|]. exfalso. lia.
  - intros H. destruct (Z.ltb_spec i 0); [lia|]. destruct (Z.leb_spec (Z.of_nat c) i); [lia|]. cbn [orb]. apply wp_ex. eapply (vfill_wp (fun k => mget A k (Z.to_nat i))); [apply is_vector_repeat| |intros v' HV'; exact HV']. intros j HJ. cbv beta. eapply mget_wp; eauto. lia.
  - intros H. destruct (Z.ltb_spec i 0); [reflexivity|]. destruct (Z.leb_spec (Z.of_nat c) i); [reflexivity|]. exfalso. lia.
  - intros <-. rewrite Nat.eqb_refl. cbn [negb]. apply wp_ex. eapply (vfill_wp (fun k => mget A k k)); [apply is_vector_repeat| |intros v' HV'; exact HV']. intros j HJ. cbv beta. eapply mget_wp; eauto.
  - intros H. apply Nat.eqb_neq in H. rewrite H. reflexivity.
Qed.
(** writing a range of the entries of each row *)
Lemma range_fill_wp : forall A n f (lo hi : nat -> nat) R (Q : matrix T -> Prop), is_matrix A n n f -> is_matrix R n n (fun _ _ => n0 O) ->
  (forall i, i < n -> lo i <= hi i /\ hi i <= n) ->
  (forall R', is_matrix R' n n (fun i j => if (lo i <=? j) && (j <? hi i) then f i j else n0 O) -> Q R') ->
  wp (for_range 0 n (fun R i => for_range (lo i) (hi i) (fun R j => x <- mget A i j ;; mset R i j x) R) R) Q.
Proof.
  intros A n f lo hi R Q HA HR HB HQ.
  eapply wp_conseq; [|apply (for_range_inv _ _ (fun k R => is_matrix R n n (fun i j => if (i <? k) && ((lo i <=? j) && (j <? hi i)) then f i j else n0 O)))].
  - intros R' HR'. apply HQ. eapply is_matrix_ext; [exact HR'|]. intros i j HI HJ. cbv beta. destruct (Nat.ltb_spec i n); [|lia]. reflexivity.
  - lia.
  - exact HR.
  - intros k R1 _ HK H1. cbv beta in H1. destruct (HB k HK) as [B1 B2].
    eapply wp_conseq; [|apply (for_range_inv _ _ (fun m R => is_matrix R n n (fun i j => if ((i <? k) && ((lo i <=? j) && (j <? hi i))) || ((i =? k) && ((lo i <=? j) && (j <? m))) then f i j else n0 O)))].
    + intros R' HR'. eapply is_matrix_ext; [exact HR'|]. intros i j HI HJ. cbv beta.
      destruct (Nat.ltb_spec i k), (Nat.eqb_spec i k), (Nat.ltb_spec i (k + 1)); try lia; cbn [andb orb]; try reflexivity. { rewrite orb_false_r. reflexivity. } subst i. reflexivity.
    + exact B1.
    + eapply is_matrix_ext; [exact H1|]. intros i j HI HJ. cbv beta. destruct (Nat.eqb_spec i k) as [->|]; cbn [andb].
      * destruct (Nat.leb_spec (lo k) j), (Nat.ltb_spec j (lo k)); try lia; cbn [andb]; rewrite orb_false_r; reflexivity.
      * rewrite orb_false_r. reflexivity.
    + intros m R2 H0 HM H2. cbv beta in H2. apply wp_bind. eapply mget_wp; eauto; [lia|]. eapply mset_wp; eauto; [lia|]. intros R' HR'. eapply is_matrix_ext; [exact HR'|]. intros i j HI HJ. unfold fset. cbv beta.
      destruct (Nat.eqb_spec i k) as [->|]; cbn [andb].
      * rewrite Nat.ltb_irrefl. cbn [andb orb]. destruct (Nat.eqb_spec j m) as [->|]; [destruct (Nat.leb_spec (lo k) m), (Nat.ltb_spec m (m + 1)); try lia; reflexivity|].
        destruct (Nat.ltb_spec j m), (Nat.ltb_spec j (m + 1)); try lia; reflexivity.
      * reflexivity.
Qed.
Theorem C44_triangles : forall A r c f (diag : bool), is_matrix A r c f -> dims_ok r c ->
  (r = c -> (exists L, mat_lower O A diag = Ok L /\ is_matrix L r r (fun i j => if (j <? i) || (diag && (j =? i)) then f i j else n0 O)) /\
            (exists U, mat_upper O A diag = Ok U /\ is_matrix U r r (fun i j => if (i <? j) || (diag && (j =? i)) then f i j else n0 O))) /\
  (r <> c -> mat_lower O A diag = Throw DimensionError /\ mat_upper O A diag = Throw DimensionError).
Proof.
  intros A r c f diag HA HD. pose proof HA as (HR & HC & _). unfold mat_lower, mat_upper. rewrite HR, HC. split.
  - intros <-. rewrite Nat.eqb_refl. cbn [negb]. split; apply wp_ex, wp_bind, alloc_ok_wp; auto; intros R HRR.
    + apply (range_fill_wp A r f (fun _ => 0) (fun i => if diag then i + 1 else i)); auto; [intros i HI; destruct diag; lia|].
      intros R' HR'. eapply is_matrix_ext; [exact HR'|]. intros i j HI HJ. cbv beta. destruct diag; cbn [Nat.leb andb]; [|rewrite orb_false_r; reflexivity].
      destruct (Nat.ltb_spec j (i + 1)), (Nat.ltb_spec j i), (Nat.eqb_spec j i); try lia; reflexivity.
    + apply (range_fill_wp A r f (fun i => if diag then i else i + 1) (fun _ => r)); auto; [intros i HI; destruct diag; lia|].
      intros R' HR'. eapply is_matrix_ext; [exact HR'|]. intros i j HI HJ. cbv beta. destruct (Nat.ltb_spec j r); [|lia]. rewrite andb_true_r.
      destruct diag; cbn [andb]; destruct (Nat.leb_spec i j), (Nat.ltb_spec i j), (Nat.leb_spec (i + 1) j), (Nat.eqb_spec j i); try lia; reflexivity.
  - intros H. apply Nat.eqb_neq in H. rewrite H. auto.
Qed.
Theorem C44_submatrix : forall A r c f ir ic rn cn, is_matrix A r c f ->
  ((0 <= ir /\ 0 <= ic /\ 0 < rn /\ 0 < cn /\ ir + rn <= Z.of_nat r /\ ic + cn <= Z.of_nat c)%Z ->
     exists S, mat_sub A ir ic rn cn = Ok S /\ is_matrix S (Z.to_nat rn) (Z.to_nat cn) (fun i j => f (Z.to_nat ir + i) (Z.to_nat ic + j))) /\
  (~ (0 <= ir /\ 0 <= ic /\ 0 < rn /\ 0 < cn /\ ir + rn <= Z.of_nat r /\ ic + cn <= Z.of_nat c)%Z -> mat_sub A ir ic rn cn = Throw DimensionError).
Proof.
  intros A r c f ir ic rn cn HA. pose proof HA as (HR & HC & _). unfold mat_sub. rewrite HR, HC. cbv zeta. split; intros H.
  - destruct (Z.ltb_spec ir 0), (Z.leb_spec (Z.of_nat r) ir), (Z.ltb_spec ic 0), (Z.leb_spec (Z.of_nat c) ic); try lia. cbn [orb].
    destruct (Z.leb_spec rn 0), (Z.leb_spec cn 0); try lia. cbn [orb]. destruct (Z.ltb_spec (Z.of_nat r) (ir + rn)), (Z.ltb_spec (Z.of_nat c) (ic + cn)); try lia. cbn [orb].
    assert (B1 : Z.to_nat ir + Z.to_nat rn <= r) by lia. assert (B2 : Z.to_nat ic + Z.to_nat cn <= c) by lia. set (i0 := Z.to_nat ir) in *. set (j0 := Z.to_nat ic) in *. set (m := Z.to_nat rn) in *. set (n := Z.to_nat cn) in *. clearbody i0 j0 m n.
    assert (W : wp (for_range 0 m (fun acc i => for_range 0 n (fun acc j => x <- mget A (i0 + i) (j0 + j) ;; Ok (acc ++ [x])) acc) [])
       (fun data => data = concat (map (fun i => map (fun j => f (i0 + i) (j0 + j)) (seq 0 n)) (seq 0 m)))).
    { apply (for_range_inv _ _ (fun k data => data = concat (map (fun i => map (fun j => f (i0 + i) (j0 + j)) (seq 0 n)) (seq 0 k)))); [lia|reflexivity|].
      intros i acc _ HI ->. eapply wp_conseq; [|apply (for_range_inv _ _ (fun k data => data = concat (map (fun i => map (fun j => f (i0 + i) (j0 + j)) (seq 0 n)) (seq 0 i)) ++ map (fun j => f (i0 + i) (j0 + j)) (seq 0 k)))].
      - intros data ->. rewrite Nat.add_1_r, seq_S, map_app, concat_app. cbn [map concat]. rewrite app_nil_r. reflexivity.
      - lia.
      - cbn [seq map]. rewrite app_nil_r. reflexivity.
      - intros j acc _ HJ ->. apply wp_bind. eapply mget_wp; eauto; [lia|lia|]. cbn [wp]. rewrite Nat.add_1_r, seq_S, map_app. cbn [map]. rewrite app_assoc. reflexivity. }
    apply wp_elim in W. destruct W as (data & E & ->). rewrite E. cbn [bind]. eexists. split; [reflexivity|].
    set (l := map (fun i => map (fun j => f (i0 + i) (j0 + j)) (seq 0 n)) (seq 0 m)). destruct (flat_nth l n) as [F1 F2]; [apply Forall_map, Forall_forall; intros; rewrite map_length, seq_length; reflexivity|].
    assert (LL : length l = m) by (unfold l; rewrite map_length, seq_length; reflexivity).
    split; [reflexivity|]. split; [reflexivity|]. split; [cbn [m_data]; rewrite F1, LL; reflexivity|]. intros i j HI HJ. cbn [m_data].
    assert (NS : forall (B : Type) (g : nat -> B) k i, i < k -> nth_error (map g (seq 0 k)) i = Some (g i)).
    { intros B g k i1 H1'. rewrite nth_error_map, (nth_error_nth' _ 0) by (rewrite seq_length; auto). rewrite seq_nth by auto. reflexivity. }
    rewrite (F2 i j _ (NS _ (fun i => map (fun j => f (i0 + i) (j0 + j)) (seq 0 n)) m i HI) HJ). apply (NS _ (fun j => f (i0 + i) (j0 + j))). auto.
  - destruct (Z.ltb_spec ir 0), (Z.leb_spec (Z.of_nat r) ir), (Z.ltb_spec ic 0), (Z.leb_spec (Z.of_nat c) ic); try reflexivity. cbn [orb].
    destruct (Z.leb_spec rn 0), (Z.leb_spec cn 0); try reflexivity. cbn [orb]. destruct (Z.ltb_spec (Z.of_nat r) (ir + rn)), (Z.ltb_spec (Z.of_nat c) (ic + cn)); try reflexivity. exfalso. apply H. lia.
Qed.

(** ** Resize *)
Theorem C44_resize : forall A r c f rows cols (preserve : bool), is_matrix A r c f ->
  ((rows = Z.of_nat r /\ cols = Z.of_nat c)%Z -> mat_resize O A rows cols preserve = Ok A) /\
  ((rows <> Z.of_nat r \/ cols <> Z.of_nat c)%Z -> (0 < rows)%Z -> (0 < cols)%Z -> dims_fit (Z.to_nat rows) (Z.to_nat cols) ->
     exists B, mat_resize O A rows cols preserve = Ok B /\ is_matrix B (Z.to_nat rows) (Z.to_nat cols) (fun i j => if preserve && ((i <? r) && (j <? c)) then f i j else n0 O)) /\
  ((rows <> Z.of_nat r \/ cols <> Z.of_nat c)%Z -> (rows <= 0 \/ cols <= 0)%Z -> mat_resize O A rows cols preserve = Throw DimensionError).
Proof.
  intros A r c f rows cols preserve HA. pose proof HA as (HR & HC & _). unfold mat_resize. rewrite HR, HC. split; [|split].
  - intros [-> ->]. rewrite !Z.eqb_refl. reflexivity.
  - intros HN H1 H2 HD. assert (E : (rows =? Z.of_nat r)%Z && (cols =? Z.of_nat c)%Z = false) by (destruct (Z.eqb_spec rows (Z.of_nat r)), (Z.eqb_spec cols (Z.of_nat c)); try reflexivity; lia). rewrite E.
    destruct (Z.leb_spec rows 0), (Z.leb_spec cols 0); try lia. cbn [orb]. cbv zeta. set (m := Z.to_nat rows) in *. set (n := Z.to_nat cols) in *.
    assert (EV : validate_dims m n = Ok tt).
    { destruct HD as (F1 & F2 & F3). unfold validate_dims. destruct (Z.ltb_spec 100000 (Z.of_nat m)); [lia|]. destruct (Z.ltb_spec 100000 (Z.of_nat n)); [lia|]. cbv beta iota delta [orb].
      destruct (Z.ltb_spec 100000000 (Z.of_nat m * Z.of_nat n)); [lia|reflexivity]. }
    rewrite EV. cbn [bind]. clearbody m n.
    assert (ZM : is_matrix (mkMat m n (repeat (n0 O) (m * n))) m n (fun _ _ => n0 O)).
    { split; [reflexivity|]. split; [reflexivity|]. split; [cbn [m_data]; apply repeat_length|]. intros i j HI HJ. cbn [m_data]. apply nth_error_repeat, idx_lt; auto. }
    destruct preserve; cbn [andb]; [|eexists; split; [reflexivity|exact ZM]].
    apply wp_ex. apply wp_bind.
    eapply wp_conseq; [|apply (for_range_inv _ _ (fun k d => is_matrix (mkMat m n d) m n (fun i j => if (i <? k) && ((i <? r) && (j <? c)) then f i j else n0 O)))].
    + intros d Hd. cbn [wp]. eapply is_matrix_ext; [exact Hd|]. intros i j HI HJ. cbv beta. destruct (Nat.ltb_spec i (Nat.min r m)), (Nat.ltb_spec i r); try lia; reflexivity.
    + lia.
    + exact ZM.
    + intros k d _ HK Hd. cbv beta in Hd.
      eapply wp_conseq; [|apply (for_range_inv _ _ (fun l d => is_matrix (mkMat m n d) m n (fun i j => if ((i <? k) && ((i <? r) && (j <? c))) || ((i =? k) && ((j <? l) && (j <? c))) then f i j else n0 O)))].
      * intros d' Hd'. eapply is_matrix_ext; [exact Hd'|]. intros i j HI HJ. cbv beta.
        destruct (Nat.ltb_spec i k), (Nat.eqb_spec i k), (Nat.ltb_spec i (k + 1)), (Nat.ltb_spec i r), (Nat.ltb_spec j c), (Nat.ltb_spec j (Nat.min c n)); try lia; reflexivity.
      * lia.
      * eapply is_matrix_ext; [exact Hd|]. intros i j HI HJ. cbv beta. cbn [andb]. rewrite andb_false_r, orb_false_r. reflexivity.
      * intros l d' _ HL Hd'. cbv beta in Hd'. apply wp_bind. eapply mget_wp; eauto; [lia|lia|].
        assert (W : wp (mset (mkMat m n d') k l (f k l)) (fun B => is_matrix B m n (fset (fun i j => if ((i <? k) && ((i <? r) && (j <? c))) || ((i =? k) && ((j <? l) && (j <? c))) then f i j else n0 O) k l (f k l)))) by (eapply mset_wp; eauto; lia).
        unfold mset, midx in W. cbn [m_data m_cols m_rows] in W. destruct (vset d' (k * n + l) (f k l)) as [d''| | |]; cbn [bind wp] in W |- *; try contradiction.
        eapply is_matrix_ext; [exact W|]. intros i j HI HJ. unfold fset. cbv beta.
        destruct (Nat.eqb_spec i k) as [->|]; cbn [andb]; [|reflexivity]. rewrite Nat.ltb_irrefl. cbn [andb orb].
        destruct (Nat.eqb_spec j l) as [->|]; [destruct (Nat.ltb_spec l (l + 1)), (Nat.ltb_spec l c); try lia; reflexivity|]. destruct (Nat.ltb_spec j l), (Nat.ltb_spec j (l + 1)); try lia; reflexivity.
  - intros HN HB. assert (E : (rows =? Z.of_nat r)%Z && (cols =? Z.of_nat c)%Z = false) by (destruct (Z.eqb_spec rows (Z.of_nat r)), (Z.eqb_spec cols (Z.of_nat c)); try reflexivity; lia). rewrite E.
    destruct (Z.leb_spec rows 0), (Z.leb_spec cols 0); try reflexivity. lia.
Qed.

(** ** Updates of a row or column *)
Theorem C44_init : forall A r c f i v x, is_matrix A r c f ->
  ((0 <= i < Z.of_nat r)%Z -> is_vector v c x -> exists B, mat_init_row A i v = Ok B /\ is_matrix B r c (fun a b => if a =? Z.to_nat i then x b else f a b)) /\
  ((0 <= i < Z.of_nat c)%Z -> is_vector v r x -> exists B, mat_init_col A i v = Ok B /\ is_matrix B r c (fun a b => if b =? Z.to_nat i then x a else f a b)) /\
  (~ (0 <= i < Z.of_nat r)%Z -> mat_init_row A i v = Throw IndexError) /\ (~ (0 <= i < Z.of_nat c)%Z -> mat_init_col A i v = Throw IndexError) /\
  ((0 <= i < Z.of_nat r)%Z -> length v <> c -> mat_init_row A i v = Throw DimensionError) /\
  ((0 <= i < Z.of_nat c)%Z -> length v <> r -> mat_init_col A i v = Throw DimensionError).
Proof.
  intros A r c f i v x HA. pose proof HA as (HR & HC & _). unfold mat_init_row, mat_init_col. rewrite HR, HC.
  split; [|split; [|split; [|split; [|split]]]].
  - intros H HV. destruct (Z.ltb_spec i 0), (Z.leb_spec (Z.of_nat r) i); try lia. cbn [orb]. pose proof HV as [HL _]. rewrite HL, Nat.eqb_refl. cbn [negb]. apply wp_ex.
    eapply wp_conseq; [|apply (for_range_inv _ _ (fun k A => is_matrix A r c (fun a b => if (a =? Z.to_nat i) && (b <? k) then x b else f a b)))].
    + intros B HB. eapply is_matrix_ext; [exact HB|]. intros a b Ha Hb. cbv beta. destruct (Nat.ltb_spec b c); [|lia]. rewrite andb_true_r. reflexivity.
    + lia.
    + eapply is_matrix_ext; [exact HA|]. intros a b Ha Hb. cbv beta. rewrite andb_false_r. reflexivity.
    + intros k B _ HK HB. cbv beta in HB. apply wp_bind. eapply vgetf_wp; eauto. eapply mset_wp; eauto; [lia|]. intros B' HB'. eapply is_matrix_ext; [exact HB'|]. intros a b Ha Hb. unfold fset. cbv beta.
      destruct (Nat.eqb_spec a (Z.to_nat i)); cbn [andb]; [|reflexivity]. destruct (Nat.eqb_spec b k), (Nat.ltb_spec b k), (Nat.ltb_spec b (k + 1)); try lia; subst; reflexivity.
  - intros H HV. destruct (Z.ltb_spec i 0), (Z.leb_spec (Z.of_nat c) i); try lia. cbn [orb]. pose proof HV as [HL _]. rewrite HL, Nat.eqb_refl. cbn [negb]. apply wp_ex.
    eapply wp_conseq; [|apply (for_range_inv _ _ (fun k A => is_matrix A r c (fun a b => if (b =? Z.to_nat i) && (a <? k) then x a else f a b)))].
    + intros B HB. eapply is_matrix_ext; [exact HB|]. intros a b Ha Hb. cbv beta. destruct (Nat.ltb_spec a r); [|lia]. rewrite andb_true_r. reflexivity.
    + lia.
    + eapply is_matrix_ext; [exact HA|]. intros a b Ha Hb. cbv beta. rewrite andb_false_r. reflexivity.
    + intros k B _ HK HB. cbv beta in HB. apply wp_bind. eapply vgetf_wp; eauto. eapply mset_wp; eauto; [lia|]. intros B' HB'. eapply is_matrix_ext; [exact HB'|]. intros a b Ha Hb. unfold fset. cbv beta.
      destruct (Nat.eqb_spec b (Z.to_nat i)); cbn [andb]; [|rewrite andb_false_r; reflexivity]. rewrite andb_true_r. destruct (Nat.eqb_spec a k), (Nat.ltb_spec a k), (Nat.ltb_spec a (k + 1)); try lia; subst; reflexivity.
  - intros H. destruct (Z.ltb_spec i 0), (Z.leb_spec (Z.of_nat r) i); try reflexivity. exfalso. lia.
  - intros H. destruct (Z.ltb_spec i 0), (Z.leb_spec (Z.of_nat c) i); try reflexivity. exfalso. lia.
  - intros H HL. destruct (Z.ltb_spec i 0), (Z.leb_spec (Z.of_nat r) i); try lia. cbn [orb]. apply Nat.eqb_neq in HL. rewrite HL. reflexivity.
  - intros H HL. destruct (Z.ltb_spec i 0), (Z.leb_spec (Z.of_nat c) i); try lia. cbn [orb]. apply Nat.eqb_neq in HL. rewrite HL. reflexivity.
Qed.
Definition transp (k l a : nat) : nat := if a =? k then l else if a =? l then k else a.
Theorem C44_swap : forall A r c f k l, is_matrix A r c f ->
  ((0 <= k < Z.of_nat r /\ 0 <= l < Z.of_nat r)%Z -> exists B, mat_swap_rows A k l = Ok B /\ is_matrix B r c (fun a b => f (transp (Z.to_nat k) (Z.to_nat l) a) b)) /\
  ((0 <= k < Z.of_nat c /\ 0 <= l < Z.of_nat c)%Z -> exists B, mat_swap_cols A k l = Ok B /\ is_matrix B r c (fun a b => f a (transp (Z.to_nat k) (Z.to_nat l) b))) /\
  (~ (0 <= k < Z.of_nat r /\ 0 <= l < Z.of_nat r)%Z -> mat_swap_rows A k l = Throw DimensionError) /\
  (~ (0 <= k < Z.of_nat c /\ 0 <= l < Z.of_nat c)%Z -> mat_swap_cols A k l = Throw DimensionError).
Proof.
  intros A r c f k l HA. pose proof HA as (HR & HC & _). unfold mat_swap_rows, mat_swap_cols. rewrite HR, HC. cbv zeta. split; [|split; [|split]].
  - intros H. destruct (Z.ltb_spec k 0), (Z.leb_spec (Z.of_nat r) k), (Z.ltb_spec l 0), (Z.leb_spec (Z.of_nat r) l); try lia. cbn [orb]. destruct (Z.eqb_spec k l) as [->|NE].
    + exists A. split; [reflexivity|]. eapply is_matrix_ext; [exact HA|]. intros a b Ha Hb. unfold transp. destruct (Nat.eqb_spec a (Z.to_nat l)); subst; reflexivity.
    + apply wp_ex. assert (N : Z.to_nat k <> Z.to_nat l) by lia. assert (HK : Z.to_nat k < r) by lia. assert (HL : Z.to_nat l < r) by lia. set (k' := Z.to_nat k) in *. set (l' := Z.to_nat l) in *. clearbody k' l'.
      eapply wp_conseq; [|apply (for_range_inv _ _ (fun j A => is_matrix A r c (fun a b => if b <? j then f (transp k' l' a) b else f a b)))].
      * intros B HB. eapply is_matrix_ext; [exact HB|]. intros a b Ha Hb. cbv beta. destruct (Nat.ltb_spec b c); [|lia]. reflexivity.
      * lia.
      * exact HA.
      * intros j B _ HJ HB. cbv beta in HB. eapply mswap_wp; eauto. intros B' HB'. eapply is_matrix_ext; [exact HB'|]. intros a b Ha Hb. unfold fset, transp. cbv beta. rewrite Nat.ltb_irrefl.
        destruct (Nat.eqb_spec a k'), (Nat.eqb_spec a l'), (Nat.eqb_spec b j), (Nat.ltb_spec b j), (Nat.ltb_spec b (j + 1)); cbn [andb]; subst; try lia; reflexivity.
  - intros H. destruct (Z.ltb_spec k 0), (Z.leb_spec (Z.of_nat c) k), (Z.ltb_spec l 0), (Z.leb_spec (Z.of_nat c) l); try lia. cbn [orb]. destruct (Z.eqb_spec k l) as [->|NE].
    + exists A. split; [reflexivity|]. eapply is_matrix_ext; [exact HA|]. intros a b Ha Hb. unfold transp. destruct (Nat.eqb_spec b (Z.to_nat l)); subst; reflexivity.
    + apply wp_ex. assert (N : Z.to_nat k <> Z.to_nat l) by lia. assert (HK : Z.to_nat k < c) by lia. assert (HL : Z.to_nat l < c) by lia. set (k' := Z.to_nat k) in *. set (l' := Z.to_nat l) in *. clearbody k' l'.
      eapply wp_conseq; [|apply (for_range_inv _ _ (fun j A => is_matrix A r c (fun a b => if a <? j then f a (transp k' l' b) else f a b)))].
      * intros B HB. eapply is_matrix_ext; [exact HB|]. intros a b Ha Hb. cbv beta. destruct (Nat.ltb_spec a r); [|lia]. reflexivity.
      * lia.
      * exact HA.
      * intros j B _ HJ HB. cbv beta in HB. eapply mswap_wp; eauto. intros B' HB'. eapply is_matrix_ext; [exact HB'|]. intros a b Ha Hb. unfold fset, transp. cbv beta. rewrite Nat.ltb_irrefl.
        destruct (Nat.eqb_spec b k'), (Nat.eqb_spec b l'), (Nat.eqb_spec a j), (Nat.ltb_spec a j), (Nat.ltb_spec a (j + 1)); cbn [andb]; subst; try lia; reflexivity.
  - intros H. destruct (Z.ltb_spec k 0), (Z.leb_spec (Z.of_nat r) k), (Z.ltb_spec l 0), (Z.leb_spec (Z.of_nat r) l); try reflexivity. exfalso. lia.
  - intros H. destruct (Z.ltb_spec k 0), (Z.leb_spec (Z.of_nat c) k), (Z.ltb_spec l 0), (Z.leb_spec (Z.of_nat c) l); try reflexivity. exfalso. lia.
Qed.

(** ** Equality *)
Theorem C44_equality : forall (eqb : T -> T -> bool) A B r c r' c' f g, (forall x y, eqb x y = true <-> x = y) ->
  is_matrix A r c f -> is_matrix B r' c' g ->
  (mat_eqb eqb A B = true <-> r = r' /\ c = c' /\ forall i j, i < r -> j < c -> f i j = g i j).
Proof.
  intros eqb A B r c r' c' f g HE HA HB. pose proof HA as (A1 & A2 & A3 & A4). pose proof HB as (B1 & B2 & B3 & B4). unfold mat_eqb. rewrite A1, A2, B1, B2, A3, B3.
  assert (G : forall l l' : list T, length l = length l' -> (forallb (fun p => eqb (fst p) (snd p)) (combine l l') = true <-> l = l')).
  { induction l as [|x l IH]; intros [|y l'] HL; cbn in *; try lia; [tauto|]. rewrite andb_true_iff, HE, IH by lia. split; [intros [-> ->]; reflexivity|intros H; injection H; auto]. }
  rewrite !andb_true_iff, !Nat.eqb_eq. split.
  - intros [[[<- <-] _] H]. apply G in H; [|lia]. split; [reflexivity|]. split; [reflexivity|]. intros i j HI HJ. specialize (A4 i j HI HJ). specialize (B4 i j HI HJ). congruence.
  - intros (<- & <- & H). split; [auto|]. apply G; [lia|]. assert (A = B) by (eapply is_matrix_eq; eauto). congruence.
Qed.
End C44.
Print Assumptions C44_at.
Print Assumptions C44_new.
Print Assumptions C44_bad_size.
Print Assumptions C44_of_rows.
Print Assumptions C44_of_list.
Print Assumptions C44_identity.
Print Assumptions C44_diagonal.
Print Assumptions C44_row_col.
Print Assumptions C44_triangles.
Print Assumptions C44_submatrix.
Print Assumptions C44_resize.
Print Assumptions C44_init.
Print Assumptions C44_swap.
Print Assumptions C44_equality.

(** ** A concrete matrix *)
Definition exA : matrix Z := mkMat 2 3 [1; 2; 3; 4; 5; 6]%Z.
Example C44_exA : is_matrix exA 2 3 (fun i j => Z.of_nat (i * 3 + j + 1)) /\ dims_fit 2 3 /\ dims_ok 2 3.
Proof.
  split; [|unfold dims_fit, dims_ok, dims_fit; lia]. split; [reflexivity|]. split; [reflexivity|]. split; [reflexivity|].
  intros [|[|i]] [|[|[|j]]] HI HJ; try lia; reflexivity.
Qed.
Example C44_computed :
  mat_new Znum (-1) 3 = Throw DimensionError /\ mat_new Znum 100000 100000 = Throw BadAlloc /\ mat_at exA 1 2 = Ok 6%Z /\ mat_at exA 2 0 = Throw IndexError /\ mat_row Znum exA 1 = Ok [4; 5; 6]%Z /\ mat_col Znum exA 2 = Ok [3; 6]%Z /\
  mat_sub exA 0 1 2 2 = Ok (mkMat 2 2 [2; 3; 5; 6]%Z) /\ mat_resize Znum exA 3 2 true = Ok (mkMat 3 2 [1; 2; 4; 5; 0; 0]%Z) /\
  mat_swap_cols exA 0 2 = Ok (mkMat 2 3 [3; 2; 1; 6; 5; 4]%Z) /\ mat_of_rows [[1; 2]; [3]]%Z = Throw DimensionError /\
  mat_lower Znum (mkMat 2 2 [1; 2; 3; 4]%Z) false = Ok (mkMat 2 2 [0; 0; 3; 0]%Z).
Proof. vm_compute. repeat split. Qed.
