(** * Walks as vertex lists; long walks repeat a vertex *)

From Coq Require Import List Arith Bool Lia Permutation.
From Verif Require Import Base Graph_Spec Graph_Model Graph_Proofs GraphAlg_Model GraphAlg_Tree GraphAlg_Bfs.
Import ListNotations.

Lemma dup_split : forall l : list nat, ~ NoDup l -> exists a x b c, l = a ++ x :: b ++ x :: c.
Proof.
  induction l as [|y l IH]; intros H; [exfalso; apply H; constructor|].
  destruct (in_dec Nat.eq_dec y l) as [Hin|Hn].
  - apply in_split in Hin. destruct Hin as (b & c & ->). exists [], y, b, c. auto.
  - destruct IH as (a & x & b & c & ->).
    + intros Hd. apply H. constructor; auto.
    + exists (y :: a), x, b, c. auto.
Qed.

Section W.
Context {W : Type} (edge : nat -> W -> nat -> Prop).


Lemma last_cons_default : forall (p : list nat) v a b, last (v :: p) a = last (v :: p) b.
Proof. induction p as [|x p IH]; intros v a b; auto. apply (IH x a b). Qed.

Lemma walk_vwalk : forall u ws v, walk edge u ws v ->
  exists p, vwalk edge (u :: p) ws /\ forall d, last (u :: p) d = v.
Proof.
  intros u ws v H. induction H as [u|u w v ws t He Hw IH].
  - exists []. split; [constructor|auto].
  - destruct IH as (p & Hp & Hl). exists (v :: p). split; [constructor; auto|].
    intros d. apply Hl.
Qed.

Lemma vwalk_walk : forall p u ws, vwalk edge (u :: p) ws -> walk edge u ws (last (u :: p) u).
Proof.
  induction p as [|x p IH]; intros u ws H; inversion H; subst.
  - constructor.
  - econstructor; eauto. change (last (u :: x :: p) u) with (last (x :: p) u).
    rewrite (last_cons_default p x u x). apply IH. auto.
Qed.

Lemma vwalk_split : forall a x b ws, vwalk edge (a ++ x :: b) ws ->
  exists w1 w2, ws = w1 ++ w2 /\ vwalk edge (a ++ [x]) w1 /\ vwalk edge (x :: b) w2.
Proof.
  induction a as [|y a IH]; intros x b ws H; simpl in *.
  - exists [], ws. split; auto. split; [constructor|auto].
  - destruct a as [|z a]; simpl in *.
    + inversion H as [|? w ? ? ws' He Hw]; subst. exists [w], ws'. split; auto. split; auto.
      constructor; auto. constructor.
    + inversion H as [|? w ? ? ws' He Hw]; subst.
      destruct (IH x b ws' Hw) as (w1 & w2 & -> & H1 & H2).
      exists (w :: w1), w2. split; auto. split; auto. constructor; auto.
Qed.

Lemma vwalk_walk_snoc : forall a x ws u, vwalk edge (a ++ [x]) ws -> hd_error (a ++ [x]) = Some u ->
  walk edge u ws x.
Proof.
  intros a x ws u H Hu. destruct a as [|y a]; simpl in *.
  - injection Hu as ->. inversion H; subst. constructor.
  - injection Hu as ->. apply vwalk_walk in H.
    rewrite app_comm_cons, last_last in H. auto.
Qed.

(** a walk with a repeated vertex contains a closed walk that can be cut out *)
Lemma vwalk_cut : forall a x b c ws u d, vwalk edge (a ++ x :: b ++ x :: c) ws ->
  hd_error (a ++ x :: b ++ x :: c) = Some u ->
  exists w1 wc w2, ws = w1 ++ wc ++ w2 /\ walk edge u w1 x /\ walk edge x wc x /\ wc <> [] /\
    walk edge x w2 (last (a ++ x :: b ++ x :: c) d).
Proof.
  intros a x b c ws u d H Hu.
  destruct (vwalk_split a x (b ++ x :: c) ws H) as (w1 & w' & -> & H1 & H').
  destruct (vwalk_split (x :: b) x c w' H') as (wc & w2 & -> & Hc & H2).
  exists w1, wc, w2. split; auto. split.
  { eapply vwalk_walk_snoc; eauto. destruct a; simpl in *; auto. }
  split. { eapply vwalk_walk_snoc; eauto. }
  split. { intros ->. inversion Hc. destruct b; discriminate. }
  apply vwalk_walk in H2.
  replace (last (a ++ x :: b ++ x :: c) d) with (last (x :: c) x); auto.
  assert (G : forall (l : list nat) y k e, last (l ++ y :: k) e = last (y :: k) e).
  { clear. induction l as [|z l IH]; intros y k e; auto. simpl app.
    rewrite <- (IH y k e). destruct l; auto. }
  rewrite G. change (x :: b ++ x :: c) with ((x :: b) ++ x :: c). rewrite G. apply last_cons_default.
Qed.

(** a walk with at least [n] edges among [n] vertices contains a closed walk *)
Lemma long_walk_cut : forall n u ws v,
  (forall u w v, edge u w v -> u < n /\ v < n) -> walk edge u ws v -> n <= length ws ->
  u < n \/ ws <> [] ->
  exists x w1 wc w2, ws = w1 ++ wc ++ w2 /\ walk edge u w1 x /\ walk edge x wc x /\ wc <> [] /\ walk edge x w2 v.
Proof.
  intros n u ws v Hd Hw Hl Hu. destruct (walk_vwalk u ws v Hw) as (p & Hp & Hlast).
  assert (Hb : forall x, In x (u :: p) -> x < n).
  { clear -Hd Hp Hu Hl. remember (u :: p) as q eqn:Eq. revert u p Eq Hu Hl.
    assert (G : forall q ws, vwalk edge q ws -> ws <> [] -> forall x, In x q -> x < n).
    { clear -Hd. intros q ws H. induction H as [u|u w v p ws He Hw IH]; intros Hne x Hx; [congruence|].
      destruct Hx as [<-|Hx]; [apply (Hd _ _ _ He)|]. destruct ws as [|w' ws].
      - inversion Hw; subst. destruct Hx as [<-|[]]. apply (Hd _ _ _ He).
      - apply IH; auto. discriminate. }
    intros u p Eq Hu Hl x Hx. destruct ws as [|w ws].
    - rewrite Eq in Hp. inversion Hp; subst. destruct Hx as [<-|[]]. destruct Hu; [auto|congruence].
    - eapply G; eauto. discriminate. }
  destruct (dup_split (u :: p)) as (a & x & b & c & E).
  { intros Hnd. pose proof (NoDup_bounded_length _ _ Hnd Hb) as Hle.
    rewrite (vwalk_length _ _ _ _ Hp) in Hle. lia. }
  destruct (vwalk_cut a x b c ws u u) as (w1 & wc & w2 & Hws & H1 & Hc & Hne & H2).
  - rewrite <- E. auto.
  - rewrite <- E. auto.
  - exists x, w1, wc, w2. split; auto. split; auto. split; auto. split; auto.
    rewrite <- E, Hlast in H2. auto.
Qed.

End W.
