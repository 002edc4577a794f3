(** * Parent pointers: what following them yields (used for BFS, DFS and Dijkstra) *)

From Coq Require Import List Arith Bool Lia.
From Verif Require Import Base Graph_Spec Graph_Model Graph_Proofs GraphAlg_Model.
Import ListNotations.

Lemma walk_snoc : forall W (edge : nat -> W -> nat -> Prop) u ws v w t,
  walk edge u ws v -> edge v w t -> walk edge u (ws ++ [w]) t.
Proof.
  intros W edge u ws v w t H He. induction H; simpl.
  - econstructor; eauto. constructor.
  - econstructor; eauto.
Qed.

Lemma walk_app : forall W (edge : nat -> W -> nat -> Prop) u ws v ws' t,
  walk edge u ws v -> walk edge v ws' t -> walk edge u (ws ++ ws') t.
Proof. intros W edge u ws v ws' t H H'. induction H; simpl; auto. econstructor; eauto. Qed.

Lemma walk_rind : forall W (edge : nat -> W -> nat -> Prop) (s : nat) (P : list W -> nat -> Prop),
  P [] s ->
  (forall ws v w t, walk edge s ws v -> P ws v -> edge v w t -> P (ws ++ [w]) t) ->
  forall ws t, walk edge s ws t -> P ws t.
Proof.
  intros W edge s P H0 Hs ws. induction ws as [|w ws IH] using rev_ind; intros t H.
  - inversion H; subst. auto.
  - assert (G : exists v, walk edge s ws v /\ edge v w t).
    { clear -H. revert s H. induction ws as [|w' ws IH]; intros s H; simpl in H.
      - inversion H as [|? ? v ? ? He Hw]; subst. inversion Hw; subst. exists s. split; auto. constructor.
      - inversion H as [|? ? v ? ? He Hw]; subst. destruct (IH _ Hw) as (x & Hx & Hx').
        exists x. split; auto. econstructor; eauto. }
    destruct G as (v & Hv & He). eapply Hs; eauto.
Qed.

Lemma vwalk_snoc : forall W (edge : nat -> W -> nat -> Prop) p u ws w v,
  vwalk edge (p ++ [u]) ws -> edge u w v -> vwalk edge ((p ++ [u]) ++ [v]) (ws ++ [w]).
Proof.
  intros W edge p. induction p as [|x p IH]; intros u ws w v H He; simpl in *.
  - inversion H; subst. simpl. econstructor; eauto. constructor.
  - destruct p as [|y p]; simpl in *.
    + inversion H as [|? ? ? ? ? He' Hw]; subst. simpl. apply vwalk_cons; [auto|]. apply (IH u); auto.
    + inversion H as [|? ? ? ? ? He' Hw]; subst. simpl. apply vwalk_cons; [auto|]. apply (IH u); auto.
Qed.

Lemma vwalk_length : forall W (edge : nat -> W -> nat -> Prop) p ws,
  vwalk edge p ws -> length p = S (length ws).
Proof. intros W edge p ws H. induction H; simpl in *; auto. Qed.

(** [tree_ok L]: every vertex of [L] is the root or its parent pointer leads, along an edge, to a
    vertex later in [L]. *)
Definition tree_ok {W} (edge : nat -> W -> nat -> Prop) (par : list (option nat)) (start : nat)
  (L : list nat) : Prop :=
  forall A v B, L = A ++ v :: B ->
    v = start \/ exists p w, nth_error par v = Some (Some p) /\ edge p w v /\ In p B.

Lemma tree_ok_tail : forall W (edge : nat -> W -> nat -> Prop) par start A L,
  tree_ok edge par start (A ++ L) -> tree_ok edge par start L.
Proof.
  intros W edge par start A L H A' v B E. apply (H (A ++ A')). rewrite E. rewrite app_assoc. auto.
Qed.

(** Following the pointers from [v] yields the reversed vertices of a walk from the root whose
    labels accumulate along the walk. *)
Lemma tree_path : forall W D (edge : nat -> W -> nat -> Prop) par start (add : D -> W -> D)
    (lab : nat -> D) L v,
  tree_ok edge par start L ->
  (forall x p w, In x L -> x <> start -> nth_error par x = Some (Some p) -> edge p w x ->
     lab x = add (lab p) w) ->
  In v L ->
  exists path ws, vwalk edge (rev (v :: path)) ws /\
    last (v :: path) v = start /\ length path < length L /\ length ws = length path /\
    fold_left add ws (lab start) = lab v /\
    walk edge start ws v /\
    (forall x, In x (v :: path) -> In x L) /\
    forall acc, iter (S (length path)) (recon_step par start) (acc, Some v) = Ok (acc ++ v :: path).
Proof.
  intros W D edge par start add lab L v Hok Hlab Hin.
  assert (G : forall k L, length L <= k -> tree_ok edge par start L ->
     (forall x p w, In x L -> x <> start -> nth_error par x = Some (Some p) -> edge p w x ->
        lab x = add (lab p) w) ->
     forall v, In v L -> exists path ws, vwalk edge (rev (v :: path)) ws /\
    last (v :: path) v = start /\ length path < length L /\ length ws = length path /\
    fold_left add ws (lab start) = lab v /\
    walk edge start ws v /\
    (forall x, In x (v :: path) -> In x L) /\
    forall acc, iter (S (length path)) (recon_step par start) (acc, Some v) = Ok (acc ++ v :: path)).
  2:{ apply (G (length L)); auto. }
  clear. induction k as [|k IH]; intros L Hk Hok Hlab v Hin.
  { destruct L; [destruct Hin|simpl in Hk; lia]. }
  destruct (Nat.eq_dec v start) as [->|Hne].
  { exists [], []. split; [simpl; constructor|]. split; auto. split.
    { destruct L; [destruct Hin|simpl; lia]. }
    split; auto. split; auto. split; [constructor|]. split.
    { simpl. intros x [->|[]]; auto. }
    intros acc. simpl. rewrite Nat.eqb_refl. reflexivity. }
  destruct (in_split _ _ Hin) as (A & B & E).
  destruct (Hok A v B E) as [->|(p & w & Hp & He & HpB)]; [congruence|].
  assert (HB : length B < length L) by (rewrite E, app_length; simpl; lia).
  destruct (IH B ltac:(lia)) with (v := p) as (path & ws & W1 & W2 & W3 & W4 & W5 & W6 & W7 & W8).
  { apply (tree_ok_tail _ _ _ _ (A ++ [v])). rewrite <- app_assoc. simpl. rewrite <- E. auto. }
  { intros x p' w' Hx. apply Hlab. rewrite E. apply in_or_app. right; right; auto. }
  { auto. }
  exists (p :: path), (ws ++ [w]).
  split.
  { change (rev (v :: p :: path)) with ((rev path ++ [p]) ++ [v]). apply vwalk_snoc; auto. }
  split.
  { change (last (v :: p :: path) v) with (last (p :: path) v). rewrite <- W2.
    clear. revert p. induction path as [|a path IH]; intros p; simpl; auto. destruct path; auto.
    apply IH. }
  split; [simpl; lia|].
  split; [rewrite app_length; simpl; lia|].
  split.
  { rewrite fold_left_app. simpl. rewrite W5. symmetry. eapply Hlab; eauto. }
  split; [eapply walk_snoc; eauto|].
  split.
  { intros x [->|Hx]; auto. rewrite E. apply in_or_app. right; right. apply W7; auto. }
  intros acc.
  change (iter (S (length (p :: path))) (recon_step par start) (acc, Some v))
    with (bind (recon_step par start (acc, Some v))
            (fun r => match r with inl s' => iter (S (length path)) (recon_step par start) s'
                                 | inr b => Ok b end)).
  unfold recon_step at 1. apply Nat.eqb_neq in Hne. rewrite Hne.
  unfold vget. rewrite Hp. cbv beta iota delta [bind]. rewrite (W8 (acc ++ [v])). rewrite <- app_assoc. reflexivity.
Qed.
