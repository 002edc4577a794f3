(** * C05, C06: Dijkstra *)

From Coq Require Import List Arith Bool Lia ZArith.
From Verif Require Import Base Graph_Spec Graph_Model Graph_Proofs GraphAlg_Model GraphAlg_Tree
  GraphAlg_Bfs GraphAlg_Dfs GraphAlg_Visit GraphAlg_TravProps GraphAlg_Dijkstra GraphAlg_Float.
Import ListNotations.

(** [least_weight edge start v d]: [d] is the weight (accumulated left to right with the arithmetic's
    own addition) of some walk from [start] to [v], below infinity, and no walk is lighter. *)
Definition least_weight {E} (O : DistOps E) (edge : nat -> E -> nat -> Prop) (start v : nat) (d : D O) : Prop :=
  d_ltb O d (d_inf O) = true /\
  (exists ws, walk edge start ws v /\ d = fold_left (d_add O) ws (d_zero O)) /\
  (forall ws, walk edge start ws v -> d_ltb O (fold_left (d_add O) ws (d_zero O)) d = false).

(** [no_finite_walk]: every walk from [start] to [v] (if there is any) has an infinite weight *)
Definition no_finite_walk {E} (O : DistOps E) (edge : nat -> E -> nat -> Prop) (start v : nat) : Prop :=
  forall ws, walk edge start ws v -> d_ltb O (fold_left (d_add O) ws (d_zero O)) (d_inf O) = false.

Theorem C05_dijkstra : forall V E (O : DistOps E) (nonneg : E -> Prop) (g : graph V E) start,
  DistLaws O nonneg -> api_graph g ->
  (forall u w v, edgeWeight g u v = Ok w -> nonneg w) -> start < numVertices g ->
  exists N, forall fuel, N <= fuel -> exists r, Dijkstra O fuel g start = Ok r /\
    length (t_dist r) = numVertices g /\ length (t_parent r) = numVertices g /\
    (forall v d, nth_error (t_dist r) v = Some d ->
       (* distances *)
       (least_weight O (gedge g) start v d \/ (d = d_inf O /\ no_finite_walk O (gedge g) start v)) /\
       (* following the parents gives a walk of exactly that weight *)
       (d_ltb O d (d_inf O) = true -> exists path ws, ReconstructPath fuel (t_parent r) start v = Ok path /\
          vwalk (gedge g) path ws /\ hd_error path = Some start /\ last path v = v /\
          d = fold_left (d_add O) ws (d_zero O))) /\
    (* nodesVisited counts the vertices at finite distance *)
    (exists S, NoDup S /\ length S = t_count r /\
       forall v, In v S <-> exists d, nth_error (t_dist r) v = Some d /\ d_ltb O d (d_inf O) = true).
Proof.
  intros V E O nonneg g start HL Ha Hw Hs. pose proof (api_gwf g Ha) as Hg.
  destruct (dij_main O nonneg HL g Hg Hw start Hs) as (N & HN).
  exists (N + (numVertices g + 3)). intros fuel Hf.
  destruct (HN fuel ltac:(lia)) as (r & Sd & Hr & HI & Hc & _). exists r. split; auto.
  split; [apply (ji_dl _ _ _ _ _ _ _ _ HI)|]. split; [apply (ji_pl _ _ _ _ _ _ _ _ HI)|].
  assert (Hfin : forall v d, nth_error (t_dist r) v = Some d -> (In v Sd <-> d_ltb O d (d_inf O) = true)).
  { intros v d Hd. split.
    - intros Hin. apply (ji_sd _ _ _ _ _ _ _ _ HI v d Hin Hd).
    - intros Hlt. destruct (in_dec Nat.eq_dec v Sd); auto.
      destruct (ji_un _ _ _ _ _ _ _ _ HI v d n Hd) as [(-> & _)|[[] _]].
      rewrite (dl_irr O nonneg HL) in Hlt. discriminate. }
  assert (HSlt : length Sd <= numVertices g) by (eapply settled_bound; eauto).
  split.
  - intros v d Hd.
    assert (Hrec : d_ltb O d (d_inf O) = true -> exists path ws, ReconstructPath fuel (t_parent r) start v = Ok path /\
          vwalk (gedge g) path ws /\ hd_error path = Some start /\ last path v = v /\
          d = fold_left (d_add O) ws (d_zero O) /\ walk (gedge g) start ws v).
    { intros Hlt. apply (Hfin v d Hd) in Hlt.
      destruct (jinv_tree O g Hg start _ _ _ _ HI) as [HT HLab].
      destruct (reconstruct_tree E (D O) (gedge g) (t_parent r) start (d_add O) (lab O (t_dist r)) Sd v)
        as (path & ws & P1 & P2 & P3 & P4 & P5 & P6 & P7); auto.
      - intros x Hx. rewrite (ji_pl _ _ _ _ _ _ _ _ HI). apply (ji_lt _ _ _ _ _ _ _ _ HI); auto.
      - exists path, ws. split; [apply P7; lia|]. split; auto. split; auto. split; auto. split; auto.
        unfold lab in P4. rewrite (ji_d0 _ _ _ _ _ _ _ _ HI), Hd in P4. auto. }
    split.
    + destruct (d_ltb O d (d_inf O)) eqn:Elt.
      * left. split; auto. destruct (Hrec eq_refl) as (path & ws & _ & _ & _ & _ & Hsum & Hwk).
        split; [eauto|]. intros ws' Hwk'.
        destruct (lower_bound O nonneg HL g Hg Hw start _ _ _ _ HI ws' v Hwk') as [(dv & _ & Hdv & Hle)|[(? & ? & [] & _)|Hle]].
        -- assert (dv = d) by congruence. subst. auto.
        -- eapply (dl_negtrans O nonneg HL); [|exact Hle]. apply (dl_inf O nonneg HL).
      * right. assert (Hn : ~ In v Sd) by (intros Hin; apply (Hfin v d Hd) in Hin; congruence).
        destruct (ji_un _ _ _ _ _ _ _ _ HI v d Hn Hd) as [(-> & _)|[[] _]]. split; auto.
        intros ws Hwk.
        destruct (lower_bound O nonneg HL g Hg Hw start _ _ _ _ HI ws v Hwk) as [(dv & ? & _)|[(? & ? & [] & _)|Hle]]; auto.
        contradiction.
    + intros Hlt. destruct (Hrec Hlt) as (path & ws & ? & ? & ? & ? & ? & _). exists path, ws. auto.
  - exists Sd. split; [apply (ji_nd _ _ _ _ _ _ _ _ HI)|]. split; auto. intros v. split.
    + intros Hin. destruct (nth_error_lt _ (t_dist r) v) as [d Hd].
      { rewrite (ji_dl _ _ _ _ _ _ _ _ HI). apply (ji_lt _ _ _ _ _ _ _ _ HI); auto. }
      exists d. split; auto. apply (Hfin v d Hd). auto.
    + intros (d & Hd & Hlt). apply (Hfin v d Hd). auto.
Qed.
Print Assumptions C05_dijkstra.

(** When sums of edge weights never reach infinity (exact arithmetic), infinity means unreachable. *)
Theorem C05_dijkstra_unreachable : forall V E (O : DistOps E) (nonneg : E -> Prop) (g : graph V E) start,
  DistLaws O nonneg -> api_graph g ->
  (forall u w v, edgeWeight g u v = Ok w -> nonneg w) -> start < numVertices g ->
  (forall ws v, walk (gedge g) start ws v -> d_ltb O (fold_left (d_add O) ws (d_zero O)) (d_inf O) = true) ->
  exists N, forall fuel, N <= fuel -> exists r, Dijkstra O fuel g start = Ok r /\
    forall v, v < numVertices g ->
      (nth_error (t_dist r) v = Some (d_inf O) <-> ~ reachable (gedge g) start v).
Proof.
  intros V E O nonneg g start HL Ha Hw Hs Hfin.
  destruct (C05_dijkstra V E O nonneg g start HL Ha Hw Hs) as (N & HN). exists N. intros fuel Hf.
  destruct (HN fuel Hf) as (r & Hr & Hdl & _ & Hd & _). exists r. split; auto.
  intros v Hv. split.
  - intros Hi (ws & Hwk). destruct (Hd v _ Hi) as [[(Hlt & _)|(_ & Hno)] _].
    + rewrite (dl_irr O nonneg HL) in Hlt. discriminate.
    + specialize (Hno ws Hwk). rewrite (Hfin ws v Hwk) in Hno. discriminate.
  - intros Hn. destruct (nth_error_lt _ (t_dist r) v ltac:(lia)) as [d Hdv].
    destruct (Hd v d Hdv) as [[(_ & (ws & Hwk & _) & _)|(-> & _)] _]; auto.
    exfalso. apply Hn. exists ws. auto.
Qed.
Print Assumptions C05_dijkstra_unreachable.

(** Dijkstra on IEEE doubles: the theorem above for the machine arithmetic, no hypotheses on weights
    other than being non-negative non-NaN doubles. *)
Theorem C05_dijkstra_double : forall V (g : graph V nnf) start, api_graph g -> start < numVertices g ->
  exists N, forall fuel, N <= fuel -> exists r, Dijkstra doubleOps fuel g start = Ok r /\
    length (t_dist r) = numVertices g /\
    (forall v d, nth_error (t_dist r) v = Some d ->
       least_weight doubleOps (gedge g) start v d \/
       (d = d_inf doubleOps /\ no_finite_walk doubleOps (gedge g) start v)).
Proof.
  intros V g start Ha Hs.
  destruct (C05_dijkstra V nnf doubleOps (fun _ => True) g start double_dist_laws Ha (fun _ _ _ _ => I) Hs) as (N & HN).
  exists N. intros fuel Hf. destruct (HN fuel Hf) as (r & Hr & Hl & _ & Hd & _).
  exists r. split; auto. split; auto. intros v d Hv. apply (Hd v d Hv).
Qed.
Print Assumptions C05_dijkstra_double.

(** ** C06 *)

Theorem C06_dijkstra_path : forall V E (O : DistOps E) (nonneg : E -> Prop) (g : graph V E) start target,
  DistLaws O nonneg -> api_graph g ->
  (forall u w v, edgeWeight g u v = Ok w -> nonneg w) ->
  start < numVertices g -> target < numVertices g ->
  exists N, forall fuel, N <= fuel -> exists r, DijkstraPath O fuel g start target = Ok r /\
    (p_found r = true ->
       least_weight O (gedge g) start target (p_weight r) /\
       exists ws, vwalk (gedge g) (p_path r) ws /\ hd_error (p_path r) = Some start /\
         last (p_path r) target = target /\ p_weight r = fold_left (d_add O) ws (d_zero O)) /\
    (p_found r = false -> p_path r = [] /\ no_finite_walk O (gedge g) start target).
Proof.
  intros V E O nonneg g start target HL Ha Hw Hs Ht. pose proof (api_gwf g Ha) as Hg.
  destruct (Nat.eq_dec target start) as [->|Hne].
  { exists 0. intros fuel _. unfold DijkstraPath.
    destruct (Nat.leb_spec (numVertices g) start); [lia|]. simpl orb. cbv iota. rewrite Nat.eqb_refl.
    eexists. split; [reflexivity|]. simpl. split; [|discriminate]. intros _. split.
    - split; [apply (dl_zero O nonneg HL)|]. split; [exists []; split; auto; constructor|].
      intros ws Hwk.
      assert (G : forall ws v, walk (gedge g) start ws v -> dle O (d_zero O) (wsum O ws)).
      { apply walk_rind; [apply (dle_refl O nonneg HL)|]. intros ws' v w t _ IH He.
        unfold wsum. rewrite fold_left_app. simpl. eapply (dle_trans O nonneg HL); [exact IH|].
        apply (dl_infl O nonneg HL). eapply Hw; eauto. }
      apply (G ws start Hwk).
    - exists []. split; [constructor|]. auto. }
  destruct (dijp_main O nonneg HL g Hg Hw start Hs target Ht Hne) as (N & HN).
  exists N. intros fuel Hf. destruct (HN fuel Hf) as (r & Hr & HP). exists r. split; auto.
  destruct HP as [(Hf1 & ws & P1 & P2 & P3 & P4 & P5 & P6 & P7)|(Hf1 & P1 & P2)]; rewrite Hf1.
  - split; [|discriminate]. intros _. split; [|exists ws; auto].
    split; auto. split; [eauto|]. exact P7.
  - split; [discriminate|]. intros _. split; auto.
Qed.
Print Assumptions C06_dijkstra_path.

(** Invalid indices give a not-found result with an empty path. *)
Theorem C06_dijkstra_path_invalid : forall V E (O : DistOps E) (g : graph V E) start target fuel,
  numVertices g <= start \/ numVertices g <= target ->
  exists r, DijkstraPath O fuel g start target = Ok r /\ p_found r = false /\ p_path r = [].
Proof.
  intros V E O g start target fuel H. unfold DijkstraPath.
  assert (Hb : (numVertices g <=? start) || (numVertices g <=? target) = true).
  { apply orb_true_iff. rewrite !Nat.leb_le. auto. }
  rewrite Hb. eexists. split; [reflexivity|]. auto.
Qed.
Print Assumptions C06_dijkstra_path_invalid.

(** Dijkstra and DijkstraPath return the same distances. *)
Theorem C06_agrees_with_dijkstra : forall V E (O : DistOps E) (nonneg : E -> Prop) (g : graph V E) start target,
  DistLaws O nonneg -> api_graph g ->
  (forall u w v, edgeWeight g u v = Ok w -> nonneg w) ->
  start < numVertices g -> target < numVertices g ->
  exists N, forall fuel, N <= fuel -> exists r p d, Dijkstra O fuel g start = Ok r /\
    DijkstraPath O fuel g start target = Ok p /\ nth_error (t_dist r) target = Some d /\
    (p_found p = true <-> d_ltb O d (d_inf O) = true) /\
    (p_found p = true -> d_ltb O (p_weight p) d = false /\ d_ltb O d (p_weight p) = false).
Proof.
  intros V E O nonneg g start target HL Ha Hw Hs Ht.
  destruct (C05_dijkstra V E O nonneg g start HL Ha Hw Hs) as (N1 & H1).
  destruct (C06_dijkstra_path V E O nonneg g start target HL Ha Hw Hs Ht) as (N2 & H2).
  exists (N1 + N2). intros fuel Hf.
  destruct (H1 fuel ltac:(lia)) as (r & R1 & R2 & _ & R3 & _).
  destruct (H2 fuel ltac:(lia)) as (p & P1 & P2 & P3).
  destruct (nth_error_lt _ (t_dist r) target ltac:(lia)) as [d Hd].
  exists r, p, d. split; auto. split; auto. split; auto.
  destruct (R3 target d Hd) as [RD _]. destruct (p_found p) eqn:Ef.
  - destruct (P2 eq_refl) as [(L1 & (ws & W1 & W2) & L2) _].
    destruct RD as [(M1 & (ws' & W1' & W2') & M2)|(-> & Hno)].
    + split; [tauto|]. intros _. split.
      * rewrite W2. apply M2; auto.
      * rewrite W2'. apply L2; auto.
    + specialize (Hno ws W1). congruence.
  - destruct (P3 eq_refl) as [_ Hno]. split; [|discriminate]. split; [discriminate|].
    intros Hlt. destruct RD as [(M1 & (ws' & W1' & W2') & M2)|(-> & _)].
    + specialize (Hno ws' W1'). congruence.
    + rewrite (dl_irr O nonneg HL) in Hlt. discriminate.
Qed.
Print Assumptions C06_agrees_with_dijkstra.

(** ** An executable instance: natural weights, [None] = infinity; and integers *)

Definition natOps : DistOps nat :=
  mkDist nat (option nat) (Some 0) None
    (fun d w => match d with Some x => Some (x + w) | None => None end)
    (fun a b => match a, b with Some x, Some y => x <? y | Some _, None => true | None, _ => false end)
    (fun d => match d with None => true | _ => false end).

Theorem nat_dist_laws : DistLaws natOps (fun _ => True).
Proof.
  constructor; simpl; auto.
  - intros [a|]; auto. apply Nat.ltb_irrefl.
  - intros [a|] [b|] [c|]; auto; try discriminate. rewrite !Nat.ltb_lt. lia.
  - intros [a|] [b|] [c|]; auto; try discriminate. rewrite !Nat.ltb_ge. lia.
  - intros [a|] [b|] w; auto; try discriminate. rewrite !Nat.ltb_ge. lia.
  - intros [a|] w; auto. rewrite Nat.ltb_ge. lia.
Qed.

Example C05_example : exists r, Dijkstra natOps 20 demo 0 = Ok r /\
  t_dist r = [Some 0; Some 3; Some 1; Some 4; None; None] /\
  t_parent r = [None; Some 2; Some 0; Some 1; None; None] /\ t_count r = 4.
Proof. eexists. split; [vm_compute; reflexivity|]. auto. Qed.

Example C06_example : exists r, DijkstraPath natOps 20 demo 0 3 = Ok r /\ p_found r = true /\
  p_path r = [0; 2; 1; 3] /\ p_weight r = Some 4.
Proof. eexists. split; [vm_compute; reflexivity|]. auto. Qed.

Definition intOps : DistOps Z :=
  mkDist Z (option Z) (Some 0%Z) None
    (fun d w => match d with Some x => Some (x + w)%Z | None => None end)
    (fun a b => match a, b with Some x, Some y => Z.ltb x y | Some _, None => true | None, _ => false end)
    (fun d => match d with None => true | _ => false end).

(** The precondition is needed: one undirected edge of negative weight makes Dijkstra loop forever. *)
Theorem C05_negative_edge_diverges : exists g : graph nat Z, api_graph g /\ numVertices g = 2 /\
  forall fuel, Dijkstra intOps fuel g 0 = NoFuel.
Proof.
  destruct (exec_ops (graph_sized (fun i => i) 2 false false) [OpAddEdge 0 1 (-1)%Z]) as [g| | |] eqn:Eg;
    try discriminate.
  exists g. split; [exists (fun i => i), 2, false, false, [OpAddEdge 0 1 (-1)%Z]; auto|].
  vm_compute in Eg. inversion Eg; subst g; clear Eg. split; auto.
  set (g := {| g_directed := false; g_vdata := _; g_adj := _; g_nedges := _; g_loops := _ |}).
  assert (G : forall fuel, (forall x dy a b c, (forall y, dy = Some y -> (x - 1 < y)%Z) ->
       iter fuel (dij_step intOps g) (mkDij intOps [Some x; dy] [a; b] [(Some x, 0)] c) = NoFuel) /\
     (forall y dx a b c, (forall x, dx = Some x -> (y - 1 < x)%Z) ->
       iter fuel (dij_step intOps g) (mkDij intOps [dx; Some y] [a; b] [(Some y, 1)] c) = NoFuel)).
  { induction fuel as [|fuel [IH1 IH2]]; [split; reflexivity|]. split.
    - intros x dy a b c Hy.
      assert (Hb : d_ltb intOps (Some (x + -1)%Z) dy = true).
      { destruct dy as [y|]; auto. simpl. apply Z.ltb_lt. specialize (Hy y eq_refl). lia. }
      assert (Hs : dij_step intOps g (mkDij intOps [Some x; dy] [a; b] [(Some x, 0)] c) =
        Ok (inl (mkDij intOps [Some x; Some (x + -1)%Z] [a; Some 0] [(Some (x + -1)%Z, 1)] (S c)))).
      { unfold dij_step. simpl. rewrite Z.ltb_irrefl. simpl in Hb. unfold dij_relax. simpl. rewrite Hb. reflexivity. }
      cbn [iter]. rewrite Hs. cbn [bind]. apply IH2. intros x' E'. injection E' as <-. lia.
    - intros y dx a b c Hx.
      assert (Hb : d_ltb intOps (Some (y + -1)%Z) dx = true).
      { destruct dx as [x|]; auto. simpl. apply Z.ltb_lt. specialize (Hx x eq_refl). lia. }
      assert (Hs : dij_step intOps g (mkDij intOps [dx; Some y] [a; b] [(Some y, 1)] c) =
        Ok (inl (mkDij intOps [Some (y + -1)%Z; Some y] [Some 1; b] [(Some (y + -1)%Z, 0)] (S c)))).
      { unfold dij_step. simpl. rewrite Z.ltb_irrefl. simpl in Hb. unfold dij_relax. simpl. rewrite Hb. reflexivity. }
      cbn [iter]. rewrite Hs. cbn [bind]. apply IH1. intros x' E'. injection E' as <-. lia. }
  intros fuel.
  change (bind (iter fuel (dij_step intOps g) (mkDij intOps [Some 0%Z; None] [None; None] [(Some 0%Z, 0)] 0))
    (fun s => Ok (mkTrav [] (j_par _ s) (j_dist _ s) (j_cnt _ s))) = NoFuel).
  destruct (G fuel) as [G1 _]. rewrite (G1 0%Z None None None 0 ltac:(discriminate)). reflexivity.
Qed.
Print Assumptions C05_negative_edge_diverges.
