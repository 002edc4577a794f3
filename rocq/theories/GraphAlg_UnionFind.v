(** * C10: union-find *)

From Coq Require Import List Arith Bool Lia.
From Verif Require Import Base Graph_Spec Graph_Model GraphAlg_Model GraphAlg_Bfs GraphAlg_Forest.
Import ListNotations.

Inductive root (par : list nat) : nat -> nat -> Prop :=
| root_base : forall x, nth_error par x = Some x -> root par x x
| root_step : forall x p r, nth_error par x = Some p -> p <> x -> root par p r -> root par x r.

Lemma root_fun : forall par x r r', root par x r -> root par x r' -> r = r'.
Proof.
  intros par x r r' H. induction H as [x Hx|x p r Hx Hne H IH]; intros H'.
  - inversion H'; subst; congruence.
  - inversion H' as [? Hx'|? p' ? Hx' Hne' H'']; subst; [congruence|].
    assert (p' = p) by congruence. subst. auto.
Qed.

Lemma root_is : forall par x r, root par x r -> nth_error par r = Some r.
Proof. intros par x r H. induction H; auto. Qed.

Section UF.
Variable n : nat.

Record uwf (u : uf) : Prop := {
  u_pl : length (uf_parent u) = n; u_rl : length (uf_rank u) = n;
  u_lt : forall x p, nth_error (uf_parent u) x = Some p -> p < n;
  u_rk : forall x p, nth_error (uf_parent u) x = Some p -> p <> x ->
         nth x (uf_rank u) 0 < nth p (uf_rank u) 0
}.

(** number of elements of larger rank: bounds the depth of the recursion *)
Definition above (rk : list nat) (x : nat) : nat :=
  length (filter (fun y => nth x rk 0 <? nth y rk 0) (seq 0 n)).

Lemma filter_le : forall A (f : A -> bool) l, length (filter f l) <= length l.
Proof. induction l as [|a l IH]; simpl; auto. destruct (f a); simpl; lia. Qed.

Lemma above_lt : forall rk x p, p < n -> nth x rk 0 < nth p rk 0 -> above rk p < above rk x.
Proof.
  intros rk x p Hp Hr. unfold above. assert (Hin : In p (seq 0 n)) by (apply in_seq; lia). clear Hp.
  assert (Hle : forall l, length (filter (fun y => nth p rk 0 <? nth y rk 0) l) <=
                          length (filter (fun y => nth x rk 0 <? nth y rk 0) l)).
  { induction l as [|a l IH]; simpl; auto.
    destruct (Nat.ltb_spec (nth p rk 0) (nth a rk 0)), (Nat.ltb_spec (nth x rk 0) (nth a rk 0)); simpl; lia. }
  induction (seq 0 n) as [|a l IH]; [destruct Hin|]. simpl.
  destruct Hin as [->|Hin].
  - rewrite Nat.ltb_irrefl. destruct (Nat.ltb_spec (nth x rk 0) (nth p rk 0)); [|lia]. simpl. specialize (Hle l). lia.
  - specialize (IH Hin). destruct (Nat.ltb_spec (nth p rk 0) (nth a rk 0)), (Nat.ltb_spec (nth x rk 0) (nth a rk 0)); simpl; lia.
Qed.

Lemma above_bound : forall rk x, above rk x <= n.
Proof. intros. unfold above. rewrite <- (seq_length n 0) at 2. apply filter_le. Qed.

Lemma root_total : forall u, uwf u -> forall k x, x < n -> above (uf_rank u) x < k -> exists r, root (uf_parent u) x r.
Proof.
  intros u Hu. induction k as [|k IH]; intros x Hx Hk; [lia|].
  destruct (nth_error_lt _ (uf_parent u) x) as [p Hp]; [rewrite (u_pl u Hu); auto|].
  destruct (Nat.eq_dec p x) as [->|Hne]; [exists x; constructor; auto|].
  destruct (IH p) as [r Hr].
  - eapply (u_lt u Hu); eauto.
  - pose proof (above_lt (uf_rank u) x p (u_lt u Hu _ _ Hp) (u_rk u Hu _ _ Hp Hne)). lia.
  - exists r. econstructor; eauto.
Qed.

Lemma root_ex : forall u, uwf u -> forall x, x < n -> exists r, root (uf_parent u) x r.
Proof. intros u Hu x Hx. apply (root_total u Hu (S n)); auto. pose proof (above_bound (uf_rank u) x). lia. Qed.

Lemma root_lt : forall u, uwf u -> forall x r, root (uf_parent u) x r -> r < n.
Proof. intros u Hu x r H. apply root_is in H. eapply (u_lt u Hu); eauto. Qed.

Lemma root_rank : forall u, uwf u -> forall x r, root (uf_parent u) x r -> x <> r -> nth x (uf_rank u) 0 < nth r (uf_rank u) 0.
Proof.
  intros u Hu x r H. induction H as [|x p r Hx Hne H IH]; intros Hxr; [congruence|].
  pose proof (u_rk u Hu _ _ Hx Hne). destruct (Nat.eq_dec p r) as [->|Hpr]; [auto|]. specialize (IH Hpr). lia.
Qed.

(** redirecting [x] to its own root changes no root *)
Lemma compress_root : forall u x r, uwf u -> root (uf_parent u) x r -> x <> r ->
  uwf (mkUF (upd (uf_parent u) x r) (uf_rank u)) /\
  forall y z, root (upd (uf_parent u) x r) y z <-> root (uf_parent u) y z.
Proof.
  intros u x r Hu Hr Hne.
  assert (Hxn : x < n). { inversion Hr as [? H|? ? ? H]; subst; apply nth_error_Some_lt in H; rewrite (u_pl u Hu) in H; auto. }
  assert (Hwf : uwf (mkUF (upd (uf_parent u) x r) (uf_rank u))).
  { constructor; simpl.
    - rewrite upd_length. apply (u_pl u Hu).
    - apply (u_rl u Hu).
    - intros y p Hy. destruct (Nat.eq_dec x y) as [<-|Hxy].
      + rewrite nth_error_upd_eq in Hy by (rewrite (u_pl u Hu); auto). injection Hy as <-. eapply root_lt; eauto.
      + rewrite nth_error_upd_neq in Hy by auto. eapply (u_lt u Hu); eauto.
    - intros y p Hy Hpy. destruct (Nat.eq_dec x y) as [<-|Hxy].
      + rewrite nth_error_upd_eq in Hy by (rewrite (u_pl u Hu); auto). injection Hy as <-. apply root_rank; auto.
      + rewrite nth_error_upd_neq in Hy by auto. eapply (u_rk u Hu); eauto. }
  split; auto.
  assert (Hrr : root (upd (uf_parent u) x r) r r).
  { constructor. rewrite nth_error_upd_neq by auto. eapply root_is; eauto. }
  assert (Fwd : forall y z, root (uf_parent u) y z -> root (upd (uf_parent u) x r) y z).
  { intros y z H. induction H as [y Hy|y p z Hy Hpy H IH].
    - destruct (Nat.eq_dec x y) as [<-|Hxy].
      + exfalso. apply Hne. eapply root_fun; [|exact Hr]. constructor. auto.
      + constructor. rewrite nth_error_upd_neq; auto.
    - destruct (Nat.eq_dec x y) as [<-|Hxy].
      + assert (z = r) by (eapply root_fun; [|exact Hr]; econstructor; eauto). subst z.
        econstructor; [rewrite nth_error_upd_eq by (rewrite (u_pl u Hu); auto); reflexivity|auto|auto].
      + econstructor; [rewrite nth_error_upd_neq; eauto|auto|auto]. }
  intros y z. split; auto. intros H.
  assert (Hy : y < n).
  { inversion H as [? H0|? ? ? H0]; subst; apply nth_error_Some_lt in H0; rewrite upd_length, (u_pl u Hu) in H0; auto. }
  destruct (root_ex u Hu y Hy) as [z' Hz']. replace z with z'; auto. eapply root_fun; [apply Fwd; eauto|auto].
Qed.

Lemma find_ok : forall fuel u x, uwf u -> x < n -> above (uf_rank u) x < fuel ->
  wp (uf_find fuel u x) (fun q => let '(u', r) := q in
    root (uf_parent u) x r /\ uwf u' /\ uf_rank u' = uf_rank u /\
    (forall y z, root (uf_parent u') y z <-> root (uf_parent u) y z)).
Proof.
  induction fuel as [|k IH]; intros u x Hu Hx Hk; [lia|].
  cbn [uf_find]. apply wp_bind. apply vget_wp; [rewrite (u_pl u Hu); auto|]. intros p Hp.
  destruct (Nat.eqb_spec p x) as [->|Hne].
  - apply wp_Ok. split; [constructor; auto|]. split; auto. split; auto. tauto.
  - apply wp_bind.
    assert (Hpn : p < n) by (eapply (u_lt u Hu); eauto).
    pose proof (above_lt (uf_rank u) x p Hpn (u_rk u Hu _ _ Hp Hne)).
    eapply wp_conseq; [|apply (IH u p Hu Hpn); lia].
    intros [u1 r] (A1 & A2 & A3 & A4). cbv beta iota.
    apply wp_bind. apply vset_wp; [rewrite (u_pl u1 A2); auto|]. apply wp_Ok.
    assert (Hxr : root (uf_parent u) x r) by (econstructor; eauto).
    assert (Hxr1 : root (uf_parent u1) x r) by (apply A4; auto).
    assert (Hne' : x <> r).
    { intros <-. apply root_is in Hxr. congruence. }
    destruct (compress_root u1 x r A2 Hxr1 Hne') as [B1 B2]. split; auto. split; auto. split; auto.
    intros y z. simpl. rewrite B2. apply A4.
Qed.

(** the classes are those generated by [P] *)
Definition uinv (P : list (nat * nat)) (u : uf) : Prop :=
  uwf u /\ forall x y r s, root (uf_parent u) x r -> root (uf_parent u) y s -> (r = s <-> conn P x y).

Lemma uinv_init : uinv [] (uf_init n).
Proof.
  assert (Hs : forall x p, nth_error (seq 0 n) x = Some p -> p = x /\ x < n).
  { intros x p Hp. assert (Hx : x < n) by (apply nth_error_Some_lt in Hp; rewrite seq_length in Hp; auto).
    split; auto. rewrite nth_error_nth' with (d := 0) in Hp by (rewrite seq_length; auto).
    rewrite seq_nth in Hp by auto. injection Hp as <-. auto. }
  assert (Hr : forall x r, root (seq 0 n) x r -> r = x).
  { intros x r H. inversion H as [? Hx|? p ? Hx Hne H']; subst; auto. apply Hs in Hx as [-> _]. congruence. }
  split.
  - constructor; simpl.
    + apply seq_length.
    + apply repeat_length.
    + intros x p Hp. apply Hs in Hp as [-> ?]. auto.
    + intros x p Hp Hne. apply Hs in Hp as [-> ?]. congruence.
  - simpl. intros x y r s H1 H2. apply Hr in H1. apply Hr in H2. subst. rewrite lab_conn. simpl. tauto.
Qed.

Lemma uinv_find : forall P u fuel x, uinv P u -> x < n -> n < fuel ->
  wp (uf_find fuel u x) (fun q => let '(u', r) := q in
    root (uf_parent u) x r /\ uinv P u' /\ uf_rank u' = uf_rank u /\
    (forall y z, root (uf_parent u') y z <-> root (uf_parent u) y z)).
Proof.
  intros P u fuel x [Hu HP] Hx Hf. eapply wp_conseq; [|apply (find_ok fuel u x Hu Hx)].
  - intros [u' r] (A1 & A2 & A3 & A4). split; auto. split; [|auto]. split; auto.
    intros y z a b H1 H2. apply HP; apply A4; auto.
  - pose proof (above_bound (uf_rank u) x). lia.
Qed.

(** linking root [b] below root [a] *)
Lemma link_root : forall u a b rk, uwf u -> nth_error (uf_parent u) a = Some a -> nth_error (uf_parent u) b = Some b ->
  a <> b -> length rk = n ->
  (forall x, x <> a -> nth x rk 0 = nth x (uf_rank u) 0) -> nth a (uf_rank u) 0 <= nth a rk 0 ->
  nth b rk 0 < nth a rk 0 ->
  uwf (mkUF (upd (uf_parent u) b a) rk) /\
  forall x r, root (uf_parent u) x r -> root (upd (uf_parent u) b a) x (if Nat.eqb r b then a else r).
Proof.
  intros u a b rk Hu Ha Hb Hab Hrl Hrk Hge Hlt.
  assert (Han : a < n) by (eapply (u_lt u Hu); eauto).
  assert (Hbn : b < n) by (eapply (u_lt u Hu); eauto).
  split.
  - constructor; simpl; auto.
    + rewrite upd_length. apply (u_pl u Hu).
    + intros x p Hx. destruct (Nat.eq_dec b x) as [<-|Hbx].
      * rewrite nth_error_upd_eq in Hx by (rewrite (u_pl u Hu); auto). injection Hx as <-. auto.
      * rewrite nth_error_upd_neq in Hx by auto. eapply (u_lt u Hu); eauto.
    + intros x p Hx Hpx. destruct (Nat.eq_dec b x) as [<-|Hbx].
      * rewrite nth_error_upd_eq in Hx by (rewrite (u_pl u Hu); auto). injection Hx as <-. auto.
      * rewrite nth_error_upd_neq in Hx by auto. pose proof (u_rk u Hu _ _ Hx Hpx) as Hr.
        assert (Hxa : x <> a) by (intros ->; congruence).
        rewrite (Hrk x Hxa). destruct (Nat.eq_dec p a) as [->|Hpa]; [lia|]. rewrite (Hrk p Hpa). auto.
  - intros x r H. induction H as [x Hx|x p r Hx Hne H IH].
    + destruct (Nat.eqb_spec x b) as [->|Hxb].
      * eapply root_step; [rewrite nth_error_upd_eq by (rewrite (u_pl u Hu); auto); reflexivity|auto|].
        constructor. rewrite nth_error_upd_neq; auto.
      * constructor. rewrite nth_error_upd_neq; auto.
    + assert (Hbx : b <> x) by (intros <-; congruence).
      eapply root_step; [rewrite nth_error_upd_neq; eauto|auto|auto].
Qed.

Lemma uinv_link : forall P u a b x y rk, uinv P u -> x < n -> y < n ->
  (root (uf_parent u) x a /\ root (uf_parent u) y b) \/ (root (uf_parent u) x b /\ root (uf_parent u) y a) ->
  a <> b -> length rk = n ->
  (forall x, x <> a -> nth x rk 0 = nth x (uf_rank u) 0) -> nth a (uf_rank u) 0 <= nth a rk 0 ->
  nth b rk 0 < nth a rk 0 ->
  uinv (P ++ [(x, y)]) (mkUF (upd (uf_parent u) b a) rk).
Proof.
  intros P u a b x y rk [Hu HP] Hx Hy Hxy Hab Hrl Hrk Hge Hlt.
  assert (Ha : nth_error (uf_parent u) a = Some a) by (destruct Hxy as [[H1 H2]|[H1 H2]]; eapply root_is; eauto).
  assert (Hb : nth_error (uf_parent u) b = Some b) by (destruct Hxy as [[H1 H2]|[H1 H2]]; eapply root_is; eauto).
  destruct (link_root u a b rk Hu Ha Hb Hab Hrl Hrk Hge Hlt) as [W1 W2]. split; auto. simpl.
  set (P' := P ++ [(x, y)]).
  assert (Hm : forall p q, conn P p q -> conn P' p q).
  { apply conn_incl. intros e He. apply in_or_app. auto. }
  assert (Hxy' : conn P' x y) by (apply conn_edge; apply in_or_app; right; left; auto).
  assert (Hroot : forall p r s, root (uf_parent u) p r -> root (uf_parent u) s r -> conn P p s).
  { intros p r s H1 H2. apply (HP p s r r H1 H2). auto. }
  assert (Hlab : forall p r, root (uf_parent u) p r ->
     root (upd (uf_parent u) b a) p (if Nat.eqb r b then a else r)) by auto.
  (* joined classes *)
  assert (Hjoin : forall p q, root (uf_parent u) p a -> root (uf_parent u) q b -> conn P' p q).
  { intros p q H1 H2. destruct Hxy as [[Hx1 Hy1]|[Hx1 Hy1]].
    - eapply conn_trans; [apply Hm; eapply Hroot; [exact H1|exact Hx1]|].
      eapply conn_trans; [exact Hxy'|]. apply Hm. eapply Hroot; eauto.
    - eapply conn_trans; [apply Hm; eapply Hroot; [exact H1|exact Hy1]|].
      eapply conn_trans; [apply conn_sym; exact Hxy'|]. apply Hm. eapply Hroot; eauto. }
  assert (Hex : forall p r, root (upd (uf_parent u) b a) p r -> exists r0, root (uf_parent u) p r0 /\ r = if Nat.eqb r0 b then a else r0).
  { intros p r H. assert (Hp : p < n).
    { inversion H as [? H0|? ? ? H0]; subst; apply nth_error_Some_lt in H0; rewrite upd_length, (u_pl u Hu) in H0; auto. }
    destruct (root_ex u Hu p Hp) as [r0 Hr0]. exists r0. split; auto. eapply root_fun; eauto. }
  intros p q r s Hr Hs. split.
  - intros ->. apply Hex in Hr as (r0 & Hr0 & E1). apply Hex in Hs as (s0 & Hs0 & E2).
    destruct (Nat.eqb_spec r0 b) as [F1|F1], (Nat.eqb_spec s0 b) as [F2|F2].
    + apply Hm. apply (Hroot p b q); congruence.
    + apply conn_sym. apply Hjoin; congruence.
    + apply Hjoin; congruence.
    + apply Hm. apply (Hroot p r0 q); congruence.
  - intros Hc.
    (* the label function is constant on P' classes *)
    assert (G : forall p q, conn P' p q -> p < n -> q < n -> forall r s, root (upd (uf_parent u) b a) p r -> root (upd (uf_parent u) b a) q s -> r = s).
    2:{ eapply G; eauto.
        - inversion Hr as [? H0|? ? ? H0]; subst; apply nth_error_Some_lt in H0; rewrite upd_length, (u_pl u Hu) in H0; auto.
        - inversion Hs as [? H0|? ? ? H0]; subst; apply nth_error_Some_lt in H0; rewrite upd_length, (u_pl u Hu) in H0; auto. }
    clear p q r s Hr Hs Hc. intros p q Hc Hp Hq r s Hr Hs.
    (* transfer through [lab] of P, which is total on all naturals *)
    apply Hex in Hr as (r0 & Hr0 & ->). apply Hex in Hs as (s0 & Hs0 & ->).
    assert (Hcases : conn P p q \/ (conn P p x /\ conn P y q) \/ (conn P p y /\ conn P x q)).
    { clear -Hc. unfold P' in Hc. induction Hc as [z|z w Hin|z w Hc IH|z w t Hc1 IH1 Hc2 IH2].
      - left. constructor.
      - apply in_app_or in Hin. destruct Hin as [Hin|[[= <- <-]|[]]]; [left; constructor; auto|].
        right. left. split; constructor.
      - destruct IH as [H|[[H1 H2]|[H1 H2]]]; eauto 8 using conn.
      - destruct IH1 as [H|[[H1 H2]|[H1 H2]]], IH2 as [H'|[[H1' H2']|[H1' H2']]]; eauto 8 using conn. }
    destruct Hcases as [H|[[H1 H2]|[H1 H2]]].
    + replace s0 with r0; auto. apply (HP p q r0 s0 Hr0 Hs0). auto.
    + destruct Hxy as [[Hx1 Hy1]|[Hx1 Hy1]].
      * assert (r0 = a) by (apply (HP p x r0 a Hr0 Hx1); auto). assert (b = s0) by (apply (HP y q b s0 Hy1 Hs0); auto). subst.
        rewrite Nat.eqb_refl. destruct (a =? s0); auto.
      * assert (r0 = b) by (apply (HP p x r0 b Hr0 Hx1); auto). assert (a = s0) by (apply (HP y q a s0 Hy1 Hs0); auto). subst.
        rewrite Nat.eqb_refl. destruct (s0 =? b); auto.
    + destruct Hxy as [[Hx1 Hy1]|[Hx1 Hy1]].
      * assert (r0 = b) by (apply (HP p y r0 b Hr0 Hy1); auto). assert (a = s0) by (apply (HP x q a s0 Hx1 Hs0); auto). subst.
        rewrite Nat.eqb_refl. destruct (s0 =? b); auto.
      * assert (r0 = a) by (apply (HP p y r0 a Hr0 Hy1); auto). assert (b = s0) by (apply (HP x q b s0 Hx1 Hs0); auto). subst.
        rewrite Nat.eqb_refl. destruct (a =? s0); auto.
Qed.

Lemma nth_upd : forall (l : list nat) i a j, i < length l -> nth j (upd l i a) 0 = if Nat.eqb i j then a else nth j l 0.
Proof.
  intros l i a j Hi. destruct (Nat.eqb_spec i j) as [<-|Hne].
  - apply nth_error_nth. apply nth_error_upd_eq. auto.
  - destruct (nth_error l j) as [b|] eqn:E.
    + rewrite (nth_error_nth _ _ _ E). apply nth_error_nth. rewrite nth_error_upd_neq; auto.
    + apply nth_error_None in E. rewrite !nth_overflow; auto. rewrite upd_length. auto.
Qed.

Lemma uinv_unite : forall P u fuel x y, uinv P u -> x < n -> y < n -> n < fuel ->
  wp (uf_unite fuel u x y) (fun q => let '(u', b) := q in
    (b = true <-> ~ conn P x y) /\ (if b then uinv (P ++ [(x, y)]) u' else uinv P u')).
Proof.
  intros P u fuel x y HU Hx Hy Hf. unfold uf_unite.
  apply wp_bind. eapply wp_conseq; [|apply (uinv_find P u fuel x HU Hx Hf)].
  intros [u1 px] (A1 & A2 & A3 & A4). cbv beta iota.
  apply wp_bind. eapply wp_conseq; [|apply (uinv_find P u1 fuel y A2 Hy Hf)].
  intros [u2 py] (B1 & B2 & B3 & B4). cbv beta iota.
  assert (Rx : root (uf_parent u2) x px) by (apply B4, A4; auto).
  assert (Ry : root (uf_parent u2) y py) by (apply B4; auto).
  destruct B2 as [W2 C2]. pose proof (C2 x y px py Rx Ry) as Hc.
  destruct (Nat.eqb_spec px py) as [E|E].
  - apply wp_Ok. split; [|split; auto]. split; [discriminate|]. intros Hn. exfalso. tauto.
  - assert (Hn : ~ conn P x y) by tauto.
    assert (Lx : px < n) by (eapply root_lt; eauto). assert (Ly : py < n) by (eapply root_lt; eauto).
    apply wp_bind. apply vget_wp; [rewrite (u_rl u2 W2); auto|]. intros rx Hrx.
    apply wp_bind. apply vget_wp; [rewrite (u_rl u2 W2); auto|]. intros ry Hry.
    apply (nth_error_nth _ _ 0) in Hrx as Nrx. apply (nth_error_nth _ _ 0) in Hry as Nry.
    assert (Gen : forall a b ra rb, a < n -> b < n -> a <> b ->
       nth_error (uf_rank u2) a = Some ra -> nth_error (uf_rank u2) b = Some rb -> rb <= ra ->
       ((root (uf_parent u2) x a /\ root (uf_parent u2) y b) \/ (root (uf_parent u2) x b /\ root (uf_parent u2) y a)) ->
       wp (par <- vset (uf_parent u2) b a ;;
           rx' <- vget (uf_rank u2) a ;;
           ry' <- vget (uf_rank u2) b ;;
           if Nat.eqb rx' ry' then rk <- vset (uf_rank u2) a (S rx') ;; Ok (mkUF par rk, true)
           else Ok (mkUF par (uf_rank u2), true))
          (fun q => let '(u', b) := q in
            (b = true <-> ~ conn P x y) /\ (if b then uinv (P ++ [(x, y)]) u' else uinv P u'))).
    { intros a b ra rb La Lb Hab Hra Hrb Hle HR.
      apply (nth_error_nth _ _ 0) in Hra as Nra. apply (nth_error_nth _ _ 0) in Hrb as Nrb.
      apply wp_bind. apply vset_wp; [rewrite (u_pl u2 W2); auto|].
      apply wp_bind. apply vget_wp; [rewrite (u_rl u2 W2); auto|]. intros ra' Hra'.
      apply wp_bind. apply vget_wp; [rewrite (u_rl u2 W2); auto|]. intros rb' Hrb'.
      assert (ra' = ra) by congruence. assert (rb' = rb) by congruence. subst ra' rb'.
      destruct (Nat.eqb_spec ra rb) as [Eab|Eab].
      - apply wp_bind. apply vset_wp; [rewrite (u_rl u2 W2); auto|]. apply wp_Ok. split; [tauto|].
        apply uinv_link; auto; [split; auto| | | |].
        + rewrite upd_length. apply (u_rl u2 W2).
        + intros z Hz. rewrite nth_upd by (rewrite (u_rl u2 W2); auto). destruct (Nat.eqb_spec a z); congruence.
        + rewrite nth_upd by (rewrite (u_rl u2 W2); auto). rewrite Nat.eqb_refl. lia.
        + rewrite !nth_upd by (rewrite (u_rl u2 W2); auto). rewrite Nat.eqb_refl.
          destruct (Nat.eqb_spec a b); [congruence|]. lia.
      - apply wp_Ok. split; [tauto|]. apply uinv_link; auto; [split; auto|apply (u_rl u2 W2)|]. lia. }
    destruct (Nat.ltb_spec rx ry) as [Hlt|Hge].
    + apply (Gen py px ry rx); auto. lia.
    + apply (Gen px py rx ry); auto.
Qed.

End UF.

(** ** C10: a client calling find and unite *)

Inductive ufop := UFind (x : nat) | UUnite (x y : nat).

(** results of the calls, in order *)
Inductive ufout := RFind (r : nat) | RUnite (b : bool).

Definition uf_exec (fuel : nat) (s : uf * list ufout) (o : ufop) : res (uf * list ufout) :=
  match o with
  | UFind x => '(u, r) <- uf_find fuel (fst s) x ;; Ok (u, snd s ++ [RFind r])
  | UUnite x y => '(u, b) <- uf_unite fuel (fst s) x y ;; Ok (u, snd s ++ [RUnite b])
  end.

Definition op_inside (n : nat) (o : ufop) : Prop :=
  match o with UFind x => x < n | UUnite x y => x < n /\ y < n end.

(** the pairs united by a list of calls *)
Definition united (ops : list ufop) : list (nat * nat) :=
  flat_map (fun o => match o with UUnite x y => [(x, y)] | _ => [] end) ops.

(** After any sequence of calls: find maps two elements to the same representative (itself an element of
    the class) iff the calls united them, directly or transitively; and every unite returned true iff its
    two elements were not yet together. *)
Theorem C10_union_find : forall n ops, (forall o, In o ops -> op_inside n o) ->
  exists N, forall fuel, N <= fuel -> exists u outs,
    for_each (uf_exec fuel) ops (uf_init n, []) = Ok (u, outs) /\
    (forall x y, x < n -> y < n -> exists u' r u'' s, uf_find fuel u x = Ok (u', r) /\ uf_find fuel u' y = Ok (u'', s) /\
        r < n /\ conn (united ops) x r /\ (r = s <-> conn (united ops) x y)) /\
    (forall pre x y post, ops = pre ++ UUnite x y :: post ->
        exists b, nth_error outs (length pre) = Some (RUnite b) /\ (b = true <-> ~ conn (united pre) x y)).
Proof.
  intros n ops Hin. exists (S n). intros fuel Hf.
  cut (wp (for_each (uf_exec fuel) ops (uf_init n, [])) (fun s => uinv n (united ops) (fst s) /\ length (snd s) = length ops /\
    (forall pre x y post, ops = pre ++ UUnite x y :: post ->
        exists b, nth_error (snd s) (length pre) = Some (RUnite b) /\ (b = true <-> ~ conn (united pre) x y)))).
  { intros H. apply wp_elim in H as ([u outs] & Hr & HU & _ & HO). exists u, outs. split; auto. split; auto.
    simpl in HU. intros x y Hx Hy.
    destruct (wp_elim _ _ _ (uinv_find n (united ops) u fuel x HU Hx ltac:(lia))) as ([u' r] & E1 & R1 & HU1 & _ & R1').
    destruct (wp_elim _ _ _ (uinv_find n (united ops) u' fuel y HU1 Hy ltac:(lia))) as ([u'' s] & E2 & R2 & HU2 & _ & R2').
    exists u', r, u'', s. split; auto. split; auto. destruct HU as [W C].
    apply R1' in R2. split; [eapply root_lt; eauto|]. split.
    - apply (C x r r r R1); auto. constructor. eapply root_is; eauto.
    - apply C; auto. }
  eapply wp_conseq; [|apply (for_each_inv _ _ (uf_exec fuel) (fun pre s => uinv n (united pre) (fst s) /\ length (snd s) = length pre /\
    (forall A x y B, pre = A ++ UUnite x y :: B ->
        exists b, nth_error (snd s) (length A) = Some (RUnite b) /\ (b = true <-> ~ conn (united A) x y))))].
  - intros s H. exact H.
  - simpl. split; [apply uinv_init|]. split; auto. intros A x y B E. destruct A; discriminate.
  - intros pre o post [u outs] E (HU & HL & HO). simpl in HU, HL, HO.
    assert (Ho : op_inside n o) by (apply Hin; rewrite E; apply in_or_app; right; left; auto).
    assert (Hkeep : forall out A x y B, pre ++ [o] = A ++ UUnite x y :: B -> (A = pre /\ o = UUnite x y) \/
       exists b, nth_error (outs ++ [out]) (length A) = Some (RUnite b) /\ (b = true <-> ~ conn (united A) x y)).
    { intros out A x y B EA. destruct B as [|o' B] using rev_ind.
      - apply app_inj_tail in EA as [-> ->]. auto.
      - rewrite app_comm_cons, app_assoc in EA. apply app_inj_tail in EA as [EA _].
        right. destruct (HO A x y B EA) as (b & Hb & Hb'). exists b. split; auto.
        rewrite nth_error_app1; auto. eapply nth_error_Some_lt; eauto. }
    assert (HU' : forall o, united (pre ++ [o]) = united pre ++ united [o]) by (intros; unfold united; apply flat_map_app).
    destruct o as [x|x y]; unfold uf_exec; simpl fst; simpl snd.
    + apply wp_bind. eapply wp_conseq; [|apply (uinv_find n (united pre) u fuel x HU Ho ltac:(lia))].
      intros [u' r] (A1 & A2 & A3 & A4). apply wp_Ok. simpl. split; [rewrite HU'; simpl; rewrite app_nil_r; auto|].
      split; [rewrite !app_length, HL; auto|]. intros A a b B EA.
      destruct (Hkeep (RFind r) A a b B EA) as [[_ ?]|?]; [discriminate|auto].
    + destruct Ho as [Hx Hy]. apply wp_bind. eapply wp_conseq; [|apply (uinv_unite n (united pre) u fuel x y HU Hx Hy ltac:(lia))].
      intros [u' b] (A1 & A2). apply wp_Ok. simpl. split.
      * rewrite HU'. simpl. destruct b; auto. destruct A2 as [W C]. split; auto.
        intros p q r s Hr Hs. rewrite (C p q r s Hr Hs).
        assert (Hxy : conn (united pre) x y).
        { destruct (conn_dec (united pre) x y); auto. exfalso. destruct A1 as [_ A1]. specialize (A1 n0). discriminate. }
        split; [apply conn_incl; intros e He; apply in_or_app; auto|].
        apply conn_mono. intros a c Hac. apply in_app_or in Hac. destruct Hac as [Hac|[[= <- <-]|[]]]; auto.
        apply conn_edge. auto.
      * split; [rewrite !app_length, HL; auto|]. intros A a c B EA.
        destruct (Hkeep (RUnite b) A a c B EA) as [[-> [= <- <-]]|?]; auto.
        exists b. split; auto. rewrite nth_error_app2, HL, Nat.sub_diag by lia. auto.
Qed.
Print Assumptions C10_union_find.

Example C10_example : exists u,
  for_each (uf_exec 10) [UUnite 0 1; UUnite 2 3; UFind 3; UUnite 1 3; UUnite 0 2; UUnite 4 4] (uf_init 5, []) =
    Ok (u, [RUnite true; RUnite true; RFind 2; RUnite true; RUnite false; RUnite false]).
Proof. eexists. vm_compute. reflexivity. Qed.
