(** * C14: the matrices of a graph *)

From Coq Require Import List Arith Bool Lia ZArith Ring Reals Lra.
From Verif Require Import Base Num Graph_Spec Graph_Model Graph_Proofs Mat_Model Mat_Proofs Mat_Props
  GraphMat_Model.
Import ListNotations.
Local Open Scope nat_scope.

(** the weight of the edge [u -> v] as the API reports it, 0 if there is none *)
Definition weight_or_0 {V T} (O : numops T) (g : graph V T) (u v : nat) : T :=
  match edgeWeight g u v with Ok w => w | _ => n0 O end.

(** total weight of the edges leaving [u] *)
Definition out_weight {V T} (O : numops T) (g : graph V T) (u : nat) : T :=
  sumn O (numVertices g) (weight_or_0 O g u).

Section GM.
Context {V T : Type} (O : numops T) (HR : ring_laws O).
Add Ring Tring : HR.
Implicit Types (g : graph V T) (l : list (edge T)) (f : nat -> nat -> T).
Notation sum := (sumn O).

(** contents of row [i] after the edges [l] have been processed *)
Definition rowf (F : nat -> edge T -> T) l f (i a b : nat) : T :=
  if Nat.eqb a i then match find_to l b with Some e => F b e | None => f a b end else f a b.

Lemma fresh_find : forall pre x post, NoDup (targets (pre ++ x :: post)) ->
  find_to (E := T) pre (e_to x) = None.
Proof.
  intros pre x post H. destruct (find_to pre (e_to x)) as [e|] eqn:F; auto. exfalso.
  apply find_to_Some in F. destruct F as [F1 F2]. unfold targets in H. rewrite map_app in H. simpl in H.
  apply NoDup_remove_2 in H. apply H. rewrite <- F2. apply in_or_app. left. apply in_map; auto.
Qed.

Lemma rowf_step : forall F pre x post f i a b, NoDup (targets (pre ++ x :: post)) ->
  fset (rowf F pre f i) i (e_to x) (F (e_to x) x) a b = rowf F (pre ++ [x]) f i a b.
Proof.
  intros F pre x post f i a b H. pose proof (fresh_find _ _ _ H) as Hf. unfold fset, rowf.
  rewrite find_to_app. destruct (Nat.eqb_spec a i) as [->|Ha]; simpl; auto.
  destruct (Nat.eqb_spec b (e_to x)) as [->|Hb].
  - rewrite Hf, Nat.eqb_refl. auto.
  - destruct (find_to pre b); auto. destruct (Nat.eqb_spec (e_to x) b); auto. congruence.
Qed.

Lemma rowf_fresh : forall F pre x post f i, NoDup (targets (pre ++ x :: post)) ->
  rowf F pre f i i (e_to x) = f i (e_to x).
Proof. intros. unfold rowf. rewrite Nat.eqb_refl, (fresh_find _ _ _ H). auto. Qed.

Definition lw l (b : nat) : T := match find_to l b with Some e => e_w e | None => n0 O end.

Lemma sum_lw_step : forall n pre x post, NoDup (targets (pre ++ x :: post)) -> e_to x < n ->
  sum n (lw (pre ++ [x])) = nadd O (sum n (lw pre)) (e_w x).
Proof.
  intros n pre x post H Hx. pose proof (fresh_find _ _ _ H) as Hf.
  rewrite (sum_split O HR n (e_to x) (lw (pre ++ [x])) Hx), (sum_split O HR n (e_to x) (lw pre) Hx).
  unfold lw at 1 3. rewrite find_to_app, Hf, Nat.eqb_refl.
  rewrite (sum_ext O n (fun i => if Nat.eqb i (e_to x) then n0 O else lw (pre ++ [x]) i)
                       (fun i => if Nat.eqb i (e_to x) then n0 O else lw pre i)); [ring|].
  intros i _. destruct (Nat.eqb_spec i (e_to x)); auto. unfold lw. rewrite find_to_app.
  destruct (find_to pre i); auto. destruct (Nat.eqb_spec (e_to x) i); auto. congruence.
Qed.

Lemma sum_weights_wp : forall n l (Q : T -> Prop), NoDup (targets l) ->
  (forall e, In e l -> e_to e < n) -> Q (sum n (lw l)) -> wp (sum_weights O l) Q.
Proof.
  intros n l Q Hnd Hl HQ. unfold sum_weights.
  eapply wp_conseq; [|apply for_each_inv with (I := fun pre d => d = sum n (lw pre))].
  - cbv beta. intros d ->. auto.
  - symmetry. apply (sum_zero O HR). auto.
  - cbv beta. intros pre x post d E ->. apply wp_Ok. symmetry. subst l. eapply sum_lw_step; eauto.
    apply Hl. apply in_or_app; simpl; auto.
Qed.

Variable g : graph V T.
Hypothesis HG : api_graph g.
Let n := numVertices g.
Hypothesis HD : dims_fit n n.
Local Notation w := (weight_or_0 O g).

Lemma dims_sq : dims_ok n n.
Proof. split; auto. tauto. Qed.

Lemma adj_row : forall i, i < n -> exists l, nth_error (g_adj g) i = Some l /\ NoDup (targets l) /\
  (forall e, In e l -> e_to e < n) /\
  (forall b, b < n -> lw l b = w i b).
Proof.
  intros i Hi. pose proof (api_gwf g HG) as W.
  destruct (nth_error_lt _ (g_adj g) i) as [l Hl]; [rewrite (w_adj _ W); auto|].
  exists l. split; auto. split; [apply (w_dup _ W i l Hl)|]. split.
  - intros [b x] He. apply (w_edge _ W i l Hl) in He. apply (w_dom _ W) in He. apply He.
  - intros b Hb. unfold weight_or_0, edgeWeight, lw. fold (numVertices g). fold n.
    destruct (Nat.leb_spec n i); [lia|]. destruct (Nat.leb_spec n b); [lia|]. simpl.
    unfold vget. rewrite Hl. simpl. destruct (find_to l b); auto.
Qed.

Lemma vget_row : forall i (Q : list (edge T) -> Prop), i < n ->
  (forall l, NoDup (targets l) -> (forall e, In e l -> e_to e < n) ->
     (forall b, b < n -> lw l b = w i b) -> Q l) ->
  wp (vget (g_adj g) i) Q.
Proof.
  intros i Q Hi HQ. destruct (adj_row i Hi) as (l & Hl & H1 & H2 & H3). unfold vget. rewrite Hl.
  simpl. auto.
Qed.

Lemma sum_row : forall l i, (forall b, b < n -> lw l b = w i b) -> sum n (lw l) = out_weight O g i.
Proof. intros l i H. apply sum_ext. intros b Hb. auto. Qed.

Lemma zero_fill_wp : forall A f (Q : matrix T -> Prop), is_matrix A n n f ->
  (forall A', is_matrix A' n n (fun _ _ => n0 O) -> Q A') -> wp (zero_fill O A n) Q.
Proof.
  intros A f Q HA HQ. unfold zero_fill.
  apply (fill_wp (fun _ _ => Ok (n0 O)) A n n f (fun _ _ => n0 O) Q); auto.
  intros. apply wp_Ok. auto.
Qed.

(** rows are processed one after the other *)
Lemma rows_wp : forall (body : matrix T -> nat -> res (matrix T)) A f h (Q : matrix T -> Prop),
  is_matrix A n n f ->
  (forall i A f', i < n -> is_matrix A n n f' -> (forall b, b < n -> f' i b = f i b) ->
     wp (body A i) (fun A' => is_matrix A' n n (fun a b => if Nat.eqb a i then h a b else f' a b))) ->
  (forall A', is_matrix A' n n h -> Q A') ->
  wp (for_range 0 n body A) Q.
Proof.
  intros body A f h Q HA Hb HQ.
  eapply wp_conseq; [|apply for_range_inv with
    (I := fun i A => is_matrix A n n (fun a b => if a <? i then h a b else f a b))].
  - cbv beta. intros A' H. apply HQ. eapply is_matrix_ext; [exact H|]. intros a b Ha Hb'. cbv beta.
    destruct (Nat.ltb_spec a n); auto. lia.
  - lia.
  - eapply is_matrix_ext; [exact HA|]. auto.
  - cbv beta. intros i A1 _ Hi H1. eapply wp_conseq; [|apply (Hb i A1 _ Hi H1)].
    + cbv beta. intros A' H. eapply is_matrix_ext; [exact H|]. intros a b Ha Hb'. cbv beta.
      destruct (Nat.eqb_spec a i); destruct (Nat.ltb_spec a i); destruct (Nat.ltb_spec a (i + 1)); auto; lia.
    + cbv beta. intros b Hb'. destruct (Nat.ltb_spec i i); auto. lia.
Qed.

Lemma adjacency_ok : exists A, toAdjacencyMatrix O g = Ok A /\ is_matrix A n n w.
Proof.
  apply wp_ex. unfold toAdjacencyMatrix. fold n. apply wp_bind. apply alloc_ok_wp; [apply dims_sq|].
  intros A0 HA0. apply wp_bind. eapply zero_fill_wp; [exact HA0|]. intros A1 HA1.
  eapply rows_wp; [exact HA1| |intros A' H; exact H].
  intros i A f' Hi HA Hf. apply wp_bind. apply vget_row; auto. intros l Hnd Hl Hw.
  eapply wp_conseq; [|apply for_each_inv with
    (I := fun pre A => is_matrix A n n (rowf (fun _ e => e_w e) pre f' i))].
  - cbv beta. intros A' H. eapply is_matrix_ext; [exact H|]. intros a b Ha Hb. unfold rowf.
    destruct (Nat.eqb_spec a i) as [->|]; auto. rewrite <- Hw by auto. unfold lw.
    destruct (find_to l b); auto.
  - eapply is_matrix_ext; [exact HA|]. intros a b Ha Hb. unfold rowf. simpl. destruct (Nat.eqb a i); auto.
  - cbv beta. intros pre x post A' E HA'. eapply mset_wp; eauto.
    { apply Hl. subst l. apply in_or_app; simpl; auto. }
    intros A2 HA2. eapply is_matrix_ext; [exact HA2|]. intros a b Ha Hb. subst l.
    apply (rowf_step (fun _ e => e_w e) pre x post f' i a b Hnd).
Qed.

Lemma degree_ok : exists A, toDegreeMatrix O g = Ok A /\
  is_matrix A n n (fun i j => if Nat.eqb i j then out_weight O g i else n0 O).
Proof.
  apply wp_ex. unfold toDegreeMatrix. fold n. apply wp_bind. apply alloc_ok_wp; [apply dims_sq|].
  intros A0 HA0. apply wp_bind. eapply zero_fill_wp; [exact HA0|]. intros A1 HA1.
  eapply rows_wp; [exact HA1| |intros A' H; exact H].
  intros i A f' Hi HA Hf. apply wp_bind. apply vget_row; auto. intros l Hnd Hl Hw.
  apply wp_bind. apply (sum_weights_wp n); auto. eapply mset_wp; eauto. intros A2 HA2.
  eapply is_matrix_ext; [exact HA2|]. intros a b Ha Hb. unfold fset.
  destruct (Nat.eqb_spec a i) as [->|]; auto. simpl. destruct (Nat.eqb_spec b i) as [->|Hne].
  - rewrite Nat.eqb_refl. apply sum_row; auto.
  - destruct (Nat.eqb_spec i b); [congruence|]. apply Hf; auto.
Qed.

Lemma laplacian_ok : exists A, toLaplacianMatrix O g = Ok A /\
  is_matrix A n n (fun i j => if Nat.eqb i j then out_weight O g i else nopp O (w i j)).
Proof.
  apply wp_ex. unfold toLaplacianMatrix. fold n. apply wp_bind. apply alloc_ok_wp; [apply dims_sq|].
  intros A0 HA0. apply wp_bind. eapply zero_fill_wp; [exact HA0|]. intros A1 HA1.
  eapply rows_wp; [exact HA1| |intros A' H; exact H].
  intros i A f' Hi HA Hf. apply wp_bind. apply vget_row; auto. intros l Hnd Hl Hw. apply wp_bind.
  eapply wp_conseq; [|apply for_each_inv with
    (I := fun pre s => is_matrix (fst s) n n (rowf (fun _ e => nopp O (e_w e)) pre f' i) /\
                       snd s = sum n (lw pre))].
  - cbv beta. intros [A' d] [H Hd]. simpl in H, Hd. eapply mset_wp; eauto. intros A2 HA2.
    eapply is_matrix_ext; [exact HA2|]. intros a b Ha Hb. unfold fset, rowf.
    destruct (Nat.eqb_spec a i) as [->|]; auto. simpl. destruct (Nat.eqb_spec b i) as [->|Hne].
    + rewrite Nat.eqb_refl. subst d. apply sum_row; auto.
    + destruct (Nat.eqb_spec i b); [congruence|]. rewrite <- Hw by auto. unfold lw.
      destruct (find_to l b); auto. rewrite Hf by auto. ring.
  - cbn [fst snd]. split.
    + eapply is_matrix_ext; [exact HA|]. intros a b Ha Hb. unfold rowf. simpl. destruct (Nat.eqb a i); auto.
    + symmetry. apply (sum_zero O HR). auto.
  - cbv beta. intros pre x post [A' d] E [HA' Hd]. simpl in HA', Hd.
    assert (Hx : e_to x < n) by (apply Hl; subst l; apply in_or_app; simpl; auto).
    apply wp_bind. eapply mset_wp; eauto.
    intros A2 HA2. apply wp_Ok. cbn [fst snd]. subst l. split.
    + eapply is_matrix_ext; [exact HA2|]. intros a b Ha Hb.
      apply (rowf_step (fun _ e => nopp O (e_w e)) pre x post f' i a b Hnd).
    + subst d. symmetry. eapply sum_lw_step; eauto.
Qed.

Lemma normalized_ok : forall isq, exists A, toNormalizedLaplacian O isq g = Ok A /\
  is_matrix A n n (fun i j => nsub O (if Nat.eqb i j then n1 O else n0 O)
     (nmul O (nmul O (isq (out_weight O g i)) (w i j)) (isq (out_weight O g j)))).
Proof.
  intros isq. apply wp_ex. unfold toNormalizedLaplacian. fold n. apply wp_bind.
  apply alloc_ok_wp; [apply dims_sq|]. intros A0 HA0. apply wp_bind.
  eapply wp_conseq; [|apply for_range_inv with
    (I := fun i d => is_vector d n (fun k => if k <? i then out_weight O g k else n0 O))].
  2: lia.
  2: { eapply is_vector_ext; [apply is_vector_repeat|]. auto. }
  2: { cbv beta. intros i d _ Hi Hd. apply wp_bind. apply vget_row; auto. intros l Hnd Hl Hw.
       apply wp_bind. apply (sum_weights_wp n); auto. eapply vsetf_wp; eauto. intros d' Hd'.
       eapply is_vector_ext; [exact Hd'|]. intros k Hk. unfold vfset. rewrite (sum_row l i) by auto.
       destruct (Nat.eqb_spec k i); destruct (Nat.ltb_spec k (i + 1)); destruct (Nat.ltb_spec k i);
         subst; auto; lia. }
  cbv beta. intros deg Hdeg. apply wp_bind.
  eapply wp_conseq; [|apply for_range_inv with
    (I := fun i d => is_vector d n (fun k => if k <? i then isq (out_weight O g k) else n0 O))].
  2: lia.
  2: { eapply is_vector_ext; [apply is_vector_repeat|]. auto. }
  2: { cbv beta. intros i d _ Hi Hd. apply wp_bind. eapply vgetf_wp; [exact Hdeg|auto|]. cbv beta.
       destruct (Nat.ltb_spec i n); [|lia]. eapply vsetf_wp; eauto. intros d' Hd'.
       eapply is_vector_ext; [exact Hd'|]. intros k Hk. unfold vfset.
       destruct (Nat.eqb_spec k i); destruct (Nat.ltb_spec k (i + 1)); destruct (Nat.ltb_spec k i);
         subst; auto; lia. }
  cbv beta. intros inv Hinv.
  assert (HI : is_vector inv n (fun k => isq (out_weight O g k))).
  { eapply is_vector_ext; [exact Hinv|]. intros k Hk. cbv beta. destruct (Nat.ltb_spec k n); auto. lia. }
  apply wp_bind. eapply (fill_wp (fun i j => Ok (if Nat.eqb i j then n1 O else n0 O))); [exact HA0| |].
  { intros. apply wp_Ok. reflexivity. }
  intros A1 HA1. eapply rows_wp; [exact HA1| |intros A' H; exact H].
  intros i A f' Hi HA Hf. apply wp_bind. apply vget_row; auto. intros l Hnd Hl Hw.
  set (F := fun b e => nsub O (f' i b) (nmul O (nmul O (isq (out_weight O g i)) (e_w e)) (isq (out_weight O g b)))).
  eapply wp_conseq; [|apply for_each_inv with (I := fun pre A => is_matrix A n n (rowf F pre f' i))].
  - cbv beta. intros A' H. eapply is_matrix_ext; [exact H|]. intros a b Ha Hb. unfold rowf.
    destruct (Nat.eqb_spec a i) as [->|]; auto. rewrite <- Hw by auto. unfold lw, F.
    destruct (find_to l b); rewrite Hf by auto; auto. ring.
  - eapply is_matrix_ext; [exact HA|]. intros a b Ha Hb. unfold rowf. simpl. destruct (Nat.eqb a i); auto.
  - cbv beta. intros pre x post A' E HA'.
    assert (Hx : e_to x < n) by (apply Hl; subst l; apply in_or_app; simpl; auto).
    apply wp_bind. eapply vgetf_wp; [exact HI|auto|]. apply wp_bind. eapply vgetf_wp; [exact HI|auto|].
    apply wp_bind. eapply mget_wp; [exact HA'|auto|auto|]. eapply mset_wp; eauto.
    intros A2 HA2. eapply is_matrix_ext; [exact HA2|]. intros a b Ha Hb. subst l.
    rewrite (rowf_fresh F pre x post f' i Hnd). apply (rowf_step F pre x post f' i a b Hnd).
Qed.

End GM.

(** ** The property *)

(** The adjacency matrix has the edge weights as entries and is symmetric for undirected graphs. *)
Theorem C14_adjacency :
  forall V T (O : numops T) (g : graph V T), api_graph g ->
  let n := numVertices g in dims_fit n n ->
  exists A, toAdjacencyMatrix O g = Ok A /\ m_rows A = n /\ m_cols A = n /\
    (forall u v w, edgeWeight g u v = Ok w -> mget A u v = Ok w) /\
    (forall u v, u < n -> v < n -> hasEdge g u v = Ok false -> mget A u v = Ok (n0 O)) /\
    (g_directed g = false -> mat_transpose O A = Ok A).
Proof.
  intros V T O g HG n HD. destruct (adjacency_ok O g HG HD) as (A & EA & HA). exists A.
  pose proof (api_gwf g HG) as W.
  split; auto. split; [apply HA|]. split; [apply HA|]. split; [|split].
  - intros u v w E. destruct (w_dom _ W u v w E). rewrite (mget_Ok A n n _ u v HA) by auto.
    unfold weight_or_0. rewrite E. auto.
  - intros u v Hu Hv E. rewrite (mget_Ok A n n _ u v HA) by auto. unfold weight_or_0.
    destruct (api_repr g HG) as [a Ha]. rewrite (hasEdge_repr g a u v Ha) in E.
    rewrite (edgeWeight_repr g a u v Ha). destruct (a_edge a u v); [discriminate|].
    destruct (_ || _); auto.
  - intros D. destruct (transpose_ok O A n n _ HA) as (C & EC & HC); [apply dims_sq; auto|].
    rewrite EC. f_equal. eapply is_matrix_eq; [exact HC|exact HA|]. intros u v Hu Hv. cbv beta.
    unfold weight_or_0. destruct (api_repr g HG) as [a Ha].
    rewrite (edgeWeight_repr g a u v Ha), (edgeWeight_repr g a v u Ha), (r_sym _ _ Ha D u v).
    destruct (a_edge a v u); auto.
    destruct (_ || _); destruct (_ || _); auto.
Qed.
Print Assumptions C14_adjacency.

Section Laplacian.
Context (T : Type) (O : numops T) (HR : ring_laws O).
Add Ring Tring2 : HR.

(** Without self loops the Laplacian is the degree matrix minus the adjacency matrix (as the library
    subtracts matrices) and annihilates the all-ones vector; the degree matrix is diagonal with the
    total weights of the outgoing edges. *)
Theorem C14_laplacian :
  forall V (g : graph V T), api_graph g ->
  let n := numVertices g in dims_fit n n ->
  (forall u, hasEdge g u u = Ok false) ->
  exists D A L, toDegreeMatrix O g = Ok D /\ toAdjacencyMatrix O g = Ok A /\
    toLaplacianMatrix O g = Ok L /\
    mat_sub_op O D A = Ok L /\
    mat_vec O L (repeat (n1 O) n) = Ok (repeat (n0 O) n) /\
    mat_vec O A (repeat (n1 O) n) = mat_vec O D (repeat (n1 O) n) /\
    (forall u v, u < n -> v < n -> u <> v -> mget D u v = Ok (n0 O)).
Proof.
  intros V g HG n HD HL.
  destruct (adjacency_ok O g HG HD) as (A & EA & HA).
  destruct (degree_ok O HR g HG HD) as (D & ED & HD').
  destruct (laplacian_ok O HR g HG HD) as (L & EL & HL').
  exists D, A, L. split; auto. split; auto. split; auto. fold n in HA, HD', HL'.
  assert (Hw : forall u, u < n -> weight_or_0 O g u u = n0 O).
  { intros u Hu. unfold weight_or_0. destruct (api_repr g HG) as [a Ha]. specialize (HL u).
    rewrite (hasEdge_repr g a u u Ha) in HL. rewrite (edgeWeight_repr g a u u Ha).
    destruct (a_edge a u u); [discriminate|]. destruct (_ || _); auto. }
  assert (HV : forall (B : matrix T) f, is_matrix B n n f ->
     exists y, mat_vec O B (repeat (n1 O) n) = Ok y /\ is_vector y n (fun i => sumn O n (f i))).
  { intros B f HB. destruct (mat_vec_ok O B (repeat (n1 O) n) n n f (fun _ => n1 O) HB) as (y & Ey & Hy).
    - apply is_vector_repeat.
    - exists y. split; auto. eapply is_vector_ext; [exact Hy|]. intros i Hi. cbv beta. apply sum_ext.
      intros k Hk. rewrite (Rmul_comm HR), (Rmul_1_l HR). auto. }
  split; [|split; [|split]].
  - destruct (sub_ok O D A n n _ _ HD' HA) as (C & EC & HC); [apply dims_sq; auto|]. rewrite EC. f_equal.
    eapply is_matrix_eq; [exact HC|exact HL'|]. intros u v Hu Hv. cbv beta.
    destruct (Nat.eqb_spec u v) as [<-|]; [rewrite Hw by auto|]; ring.
  - destruct (HV L _ HL') as (y & -> & Hy). f_equal. eapply is_vector_eq; [exact Hy|apply is_vector_repeat|].
    intros u Hu. cbv beta. rewrite (sum_split O HR n u _ Hu). rewrite Nat.eqb_refl.
    rewrite (sum_ext O n _ (fun i => nopp O (weight_or_0 O g u i))).
    + rewrite (sum_opp O HR). unfold out_weight. fold n. ring.
    + intros i Hi. destruct (Nat.eqb_spec i u) as [->|Hne]; [rewrite Hw by auto; ring|].
      destruct (Nat.eqb_spec u i); [congruence|auto].
  - destruct (HV A _ HA) as (y & -> & Hy). destruct (HV D _ HD') as (z & -> & Hz). f_equal.
    eapply is_vector_eq; [exact Hy|exact Hz|]. intros u Hu. cbv beta.
    rewrite (sum_one O HR n u (fun j => if Nat.eqb u j then _ else _) Hu).
    + rewrite Nat.eqb_refl. auto.
    + intros i Hi Hne. destruct (Nat.eqb_spec u i); [congruence|auto].
  - intros u v Hu Hv Hne. rewrite (mget_Ok D n n _ u v HD') by auto. destruct (Nat.eqb_spec u v); congruence.
Qed.
End Laplacian.
Print Assumptions C14_laplacian.

(** With a self loop the documented equation L = D - A is false: the diagonal entry of L is
    overwritten with the full degree. *)
Theorem C14_laplacian_selfloop_refuted :
  exists g : graph nat Z, api_graph g /\
  exists D A L M, toDegreeMatrix Znum g = Ok D /\ toAdjacencyMatrix Znum g = Ok A /\
    toLaplacianMatrix Znum g = Ok L /\ mat_sub_op Znum D A = Ok M /\ L <> M.
Proof.
  destruct (exec_ops (graph_sized (fun i => i) 2 false true) [OpAddEdge 0 0 5%Z; OpAddEdge 0 1 2%Z])
    as [g| | |] eqn:E; try discriminate.
  exists g. split; [repeat eexists; exact E|].
  vm_compute in E. injection E as <-. do 4 eexists. vm_compute. repeat apply conj; try reflexivity. discriminate.
Qed.
Print Assumptions C14_laplacian_selfloop_refuted.

Example C14_example :
  match exec_ops (graph_sized (fun i => i) 3 false false) [OpAddEdge 0 1 5%Z; OpAddEdge 2 1 2%Z] with
  | Ok g => toLaplacianMatrix Znum g = Ok (mkMat 3 3 [5; -5; 0; -5; 7; -2; 0; -2; 2])%Z /\
            dims_fit (numVertices g) (numVertices g)
  | _ => False
  end.
Proof. vm_compute. split; auto. split; [|split]; discriminate. Qed.

(** Over the reals, the normalized Laplacian is I - D^(-1/2) A D^(-1/2): multiplied on both sides by
    D^(1/2) it is the Laplacian, when every vertex has positive total weight. *)
Definition inv_sqrt (d : R) : R := if Rlt_dec 0 d then (1 / sqrt d)%R else 0%R.

Theorem C14_normalized_laplacian :
  forall V (g : graph V R), api_graph g ->
  let n := numVertices g in dims_fit n n ->
  (forall u, hasEdge g u u = Ok false) ->
  (forall u, u < n -> (0 < out_weight Rnum g u)%R) ->
  exists N L D, toNormalizedLaplacian Rnum inv_sqrt g = Ok N /\ toLaplacianMatrix Rnum g = Ok L /\
    toDegreeMatrix Rnum g = Ok D /\
    (forall u v, u < n -> v < n -> exists x y du dv,
       mget N u v = Ok x /\ mget L u v = Ok y /\ mget D u u = Ok du /\ mget D v v = Ok dv /\
       (sqrt du * x * sqrt dv = y)%R).
Proof.
  intros V g HG n HD HL Hpos. pose proof (field_ring _ _ Rnum_field) as HR.
  destruct (normalized_ok Rnum HR g HG HD inv_sqrt) as (N & EN & HN).
  destruct (laplacian_ok Rnum HR g HG HD) as (L & EL & HL').
  destruct (degree_ok Rnum HR g HG HD) as (D & ED & HD').
  exists N, L, D. split; auto. split; auto. split; auto. intros u v Hu Hv.
  do 4 eexists. split; [apply (mget_Ok N n n _ u v HN); auto|]. split; [apply (mget_Ok L n n _ u v HL'); auto|].
  split; [apply (mget_Ok D n n _ u u HD'); auto|]. split; [apply (mget_Ok D n n _ v v HD'); auto|].
  cbv beta. rewrite !Nat.eqb_refl. simpl. unfold inv_sqrt.
  destruct (Rlt_dec 0 (out_weight Rnum g u)) as [P|]; [|exfalso; auto].
  destruct (Rlt_dec 0 (out_weight Rnum g v)) as [P'|]; [|exfalso; auto].
  pose proof (sqrt_lt_R0 _ P) as S1. pose proof (sqrt_lt_R0 _ P') as S2.
  destruct (Nat.eqb_spec u v) as [<-|Hne].
  - assert (weight_or_0 Rnum g u u = 0%R) as ->.
    { unfold weight_or_0. destruct (api_repr g HG) as [a Ha]. specialize (HL u).
      rewrite (hasEdge_repr g a u u Ha) in HL. rewrite (edgeWeight_repr g a u u Ha).
      destruct (a_edge a u u); [discriminate|]. destruct (_ || _); auto. }
    transitivity (sqrt (out_weight Rnum g u) * sqrt (out_weight Rnum g u))%R; [field; lra|].
    apply sqrt_sqrt. lra.
  - field. lra.
Qed.
Print Assumptions C14_normalized_laplacian.

Lemma C14_normalized_nonvacuous : exists g : graph nat R, api_graph g /\ numVertices g = 2 /\
  dims_fit (numVertices g) (numVertices g) /\
  (forall u, hasEdge g u u = Ok false) /\
  (forall u, u < numVertices g -> (0 < out_weight Rnum g u)%R).
Proof.
  destruct (exec_ops (graph_sized (fun i => i) 2 false false) [OpAddEdge 0 1 3%R]) as [g| | |] eqn:E;
    try discriminate.
  exists g. split; [repeat eexists; exact E|]. cbn in E. injection E as <-.
  split; [reflexivity|]. split; [vm_compute; split; [|split]; discriminate|]. split.
  - intros [|[|u]]; try reflexivity.
  - unfold out_weight. cbn. intros [|[|u]] Hu; cbn; try lra. lia.
Qed.
