(** * The visitor variants follow the plain traversals *)

From Coq Require Import List Arith Bool Lia.
From Verif Require Import Base Graph_Spec Graph_Model Graph_Proofs GraphAlg_Model GraphAlg_Tree
  GraphAlg_Bfs GraphAlg_Dfs.
Import ListNotations.

(** [until f l]: the elements of [l] up to and including the first on which [f] is false *)
Fixpoint until (f : nat -> bool) (l : list nat) : list nat :=
  match l with
  | [] => []
  | x :: l' => x :: (if f x then until f l' else [])
  end.

Section Visit.
Context {V E : Type}.
Variable g : graph V E.
Variable f : nat -> bool.

Lemma bfsv_push_sim : forall u (l : list (edge E)) s s',
  for_each (bfs_visit u) l s = Ok s' ->
  for_each bfsv_push l (b_vis s, b_queue s) = Ok (b_vis s', b_queue s') /\ b_order s' = b_order s.
Proof.
  intros u l. induction l as [|e l IH]; intros s s' H; simpl in H.
  - inversion H; subst. auto.
  - apply bind_Ok in H. destruct H as (s1 & H1 & H2).
    destruct (IH _ _ H2) as (J1 & J2). simpl.
    unfold bfs_visit in H1. apply bind_Ok in H1. destruct H1 as (b & Hb & H1). rewrite Hb. simpl.
    destruct b.
    + inversion H1; subst. simpl. auto.
    + apply bind_Ok in H1. destruct H1 as (vis & Hv & H1). rewrite Hv. simpl.
      apply bind_Ok in H1. destruct H1 as (? & _ & H1).
      apply bind_Ok in H1. destruct H1 as (? & _ & H1).
      apply bind_Ok in H1. destruct H1 as (? & _ & H1).
      inversion H1; subst. simpl in *. rewrite J1. auto.
Qed.

Lemma bfsv_sim : forall fuel s s',
  iter fuel (bfs_step g) s = Ok s' -> exists rest, b_order s' = b_order s ++ rest /\
  forall calls, iter fuel (bfsv_step g f) (b_vis s, b_queue s, calls) = Ok (calls ++ until f rest).
Proof.
  induction fuel as [|fuel IH]; intros s s' H; simpl in H; [discriminate|].
  apply bind_Ok in H. destruct H as (r & Hr & Hk).
  unfold bfs_step in Hr. destruct (b_queue s) as [|u q] eqn:Eq.
  - inversion Hr; subst. inversion Hk; subst. exists []. rewrite app_nil_r. split; auto.
    intros calls. simpl. rewrite app_nil_r. auto.
  - apply bind_Ok in Hr. destruct Hr as (l & Hl & Hr).
    apply bind_Ok in Hr. destruct Hr as (s1 & Hs1 & Hr). inversion Hr; subst r.
    destruct (bfsv_push_sim _ _ _ _ Hs1) as (J1 & J2). simpl in *.
    destruct (IH _ _ Hk) as (rest & E1 & E2). exists (u :: rest). split.
    + rewrite E1, J2. rewrite <- app_assoc. auto.
    + intros calls. simpl. destruct (f u); simpl; auto.
      rewrite Hl. simpl. rewrite J1. simpl. rewrite E2. rewrite <- app_assoc. auto.
Qed.

Lemma dfsv_push_sim : forall u (l : list (edge E)) s s',
  for_each (dfs_push u) l s = Ok s' ->
  for_each (dfsv_push (d_vis s)) l (d_stack s) = Ok (d_stack s') /\ d_order s' = d_order s /\ d_vis s' = d_vis s.
Proof.
  intros u l. induction l as [|e l IH]; intros s s' H; simpl in H.
  - inversion H; subst. auto.
  - apply bind_Ok in H. destruct H as (s1 & H1 & H2).
    destruct (IH _ _ H2) as (J1 & J2 & J3). simpl. unfold dfsv_push at 1.
    unfold dfs_push in H1. apply bind_Ok in H1. destruct H1 as (b & Hb & H1). rewrite Hb. simpl.
    destruct b.
    + inversion H1; subst. simpl. auto.
    + apply bind_Ok in H1. destruct H1 as (p & Hp & H1).
      assert (K : d_stack s1 = e_to e :: d_stack s /\ d_vis s1 = d_vis s /\ d_order s1 = d_order s).
      { destruct p.
        - inversion H1; subst. auto.
        - apply bind_Ok in H1. destruct H1 as (? & _ & H1).
          apply bind_Ok in H1. destruct H1 as (? & _ & H1).
          apply bind_Ok in H1. destruct H1 as (? & _ & H1). inversion H1; subst; auto. }
      destruct K as (K1 & K2 & K3). rewrite K1, K2 in J1. simpl. rewrite J1. split; auto. split; congruence.
Qed.

Lemma dfsv_sim : forall fuel s s',
  iter fuel (dfs_step g) s = Ok s' -> exists rest, d_order s' = d_order s ++ rest /\
  forall calls, iter fuel (dfsv_step g f) (d_vis s, d_stack s, calls) = Ok (calls ++ until f rest).
Proof.
  induction fuel as [|fuel IH]; intros s s' H; simpl in H; [discriminate|].
  apply bind_Ok in H. destruct H as (r & Hr & Hk).
  unfold dfs_step in Hr. destruct (d_stack s) as [|u q] eqn:Eq.
  - inversion Hr; subst. inversion Hk; subst. exists []. rewrite app_nil_r. split; auto.
    intros calls. simpl. rewrite app_nil_r. auto.
  - apply bind_Ok in Hr. destruct Hr as (b & Hb & Hr). destruct b.
    + inversion Hr; subst. destruct (IH _ _ Hk) as (rest & E1 & E2). simpl in *.
      exists rest. split; auto. intros calls. simpl. rewrite Hb. simpl. apply E2.
    + apply bind_Ok in Hr. destruct Hr as (vis' & Hv & Hr).
      apply bind_Ok in Hr. destruct Hr as (l & Hl & Hr).
      apply bind_Ok in Hr. destruct Hr as (s1 & Hs1 & Hr). inversion Hr; subst r.
      destruct (dfsv_push_sim _ _ _ _ Hs1) as (J1 & J2 & J3). simpl in *.
      destruct (IH _ _ Hk) as (rest & E1 & E2). exists (u :: rest). split.
      * rewrite E1, J2. rewrite <- app_assoc. auto.
      * intros calls. simpl. rewrite Hb. simpl. rewrite Hv. simpl. destruct (f u); simpl; auto.
        rewrite Hl. simpl. rewrite J1. simpl. rewrite <- J3. rewrite E2. rewrite <- app_assoc. auto.
Qed.

End Visit.
