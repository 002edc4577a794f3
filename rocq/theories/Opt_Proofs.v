(** * C62: bracketing a minimum; C63: golden section search *)
From Coq Require Import List Arith Bool Lia ZArith Reals Lra Psatz.
From Verif Require Import Base Num RootFind_Model RootFind_Proofs Opt_Model Opt_Spec.
Import ListNotations.
Local Open Scope R_scope.

Ltac onum := cbn [Rarith aops altb alit asqrt Rnum nadd nmul nsub nopp ndiv n0 n1 ahalf] in *; rewrite ?Rabs_aabs in *.
Ltac cases := repeat match goal with
  | |- context [Rltb ?a ?b] => destruct (Rltb_spec a b)
  | H : context [Rltb ?a ?b] |- _ => destruct (Rltb_spec a b)
  end.

Lemma GOLD_val : GOLD Rarith = 1618034 / 1000000. Proof. reflexivity. Qed.
Lemma GR_val : GR Rarith = 61803399 / 100000000. Proof. reflexivity. Qed.
Lemma GC_val : GC Rarith = 38196601 / 100000000. Proof. unfold GC. rewrite GR_val. onum. lra. Qed.
Lemma beyond : forall b c, b < c \/ c < b -> inside b (c + GOLD Rarith * (c - b)) c.
Proof. intros b c H. rewrite GOLD_val. unfold inside. destruct H; [left|right]; lra. Qed.

(** ** Bracketing *)
Definition binv (f : R -> R) (ax bx cx fa fb fc : R) : Prop := inside ax cx bx /\ fa = f ax /\ fb = f bx /\ fc = f cx /\ fb <= fa.
Lemma bracket_loop_inv : forall f n ax bx cx fa fb fc, binv f ax bx cx fa fb fc ->
  let br := bracketmin_loop Rarith f n ax bx cx fa fb fc in
  inside (bk_ax br) (bk_cx br) (bk_bx br) /\ bk_fa br = f (bk_ax br) /\ bk_fb br = f (bk_bx br) /\ bk_fc br = f (bk_cx br) /\ bk_fb br <= bk_fa br /\ bk_fb br <= fb /\
  (if bk_valid br then bk_fb br <= bk_fc br else bk_fc br < bk_fb br).
Proof.
  intros f n. induction n as [|n IH]; intros ax bx cx fa fb fc (I & -> & -> & -> & L); cbv zeta.
  - cbn [bracketmin_loop]. onum. destruct (Rltb_spec (f cx) (f bx)) as [D|D]; cbn; repeat split; auto; lra.
  - cbn [bracketmin_loop]. onum. destruct (Rltb_spec (f cx) (f bx)) as [D|D]; [|clear IH; cbn [bk_ax bk_bx bk_cx bk_fa bk_fb bk_fc bk_valid]; repeat split; auto; lra].
    match goal with |- context [bx - ?e / ?d] => set (u := bx - e / d) end. clearbody u.
    set (ulim := bx + GLIMIT Rarith * (cx - bx)).
    assert (Hl : inside bx ulim cx). { unfold ulim, GLIMIT, inside in *. onum. destruct I; [left|right]; lra. } clearbody ulim.
    assert (Hg : inside bx (cx + GOLD Rarith * (cx - bx)) cx). { apply beyond. unfold inside in I. destruct I; lra. }
    assert (Step : forall a b c, inside a c b -> f b <= f a -> f b <= f bx -> let br := bracketmin_loop Rarith f n a b c (f a) (f b) (f c) in
       inside (bk_ax br) (bk_cx br) (bk_bx br) /\ bk_fa br = f (bk_ax br) /\ bk_fb br = f (bk_bx br) /\ bk_fc br = f (bk_cx br) /\ bk_fb br <= bk_fa br /\ bk_fb br <= f bx /\
       (if bk_valid br then bk_fb br <= bk_fc br else bk_fc br < bk_fb br)).
    { intros a b c H1 H2 H3 br. destruct (IH a b c (f a) (f b) (f c)) as (A1 & A2 & A3 & A4 & A5 & A6 & A7); [repeat split; auto|]. fold br in A1, A2, A3, A4, A5, A6, A7. repeat split; auto. lra. }
    destruct (Rltb_spec 0 ((bx - u) * (u - cx))) as [C1|C1].
    { assert (Hu : inside bx cx u). { unfold inside. destruct (Rlt_dec bx u), (Rlt_dec u cx), (Rlt_dec u bx), (Rlt_dec cx u); try (left; lra); try (right; lra); exfalso; nra. }
      destruct (Rltb_spec (f u) (f cx)) as [D1|D1]. { clear IH Step. cbn [bk_ax bk_bx bk_cx bk_fa bk_fb bk_fc bk_valid]. repeat split; auto; lra. }
      destruct (Rltb_spec (f bx) (f u)) as [D2|D2].
      - clear IH Step. cbn [bk_ax bk_bx bk_cx bk_fa bk_fb bk_fc bk_valid]. repeat split; auto; try lra. unfold inside in *. destruct I, Hu; lra.
      - apply Step; auto; lra. }
    destruct (Rltb_spec 0 ((cx - u) * (u - ulim))) as [C2|C2].
    { assert (Hu : inside bx u cx). { unfold inside in *. destruct (Rlt_dec cx u), (Rlt_dec u cx), (Rlt_dec u ulim), (Rlt_dec ulim u); try lra; exfalso; nra. }
      destruct (Rltb_spec (f u) (f cx)) as [D1|D1].
      - apply Step; try lra. apply beyond. unfold inside in Hu. destruct Hu; lra.
      - apply Step; auto; lra. }
    destruct (Rltb_spec ((u - ulim) * (ulim - cx)) 0) as [C3|C3]; cbn [negb]; apply Step; auto; lra.
Qed.
(** a valid result brackets: the middle point is strictly between the others and no higher than they or the two starting points *)
Theorem C62_bracket : forall f a b, a <> b -> let br := BracketMinimum Rarith f a b in
  (bk_valid br = true -> brackets f br) /\ bk_fb br <= f a /\ bk_fb br <= f b /\
  (bk_valid br = false -> inside (bk_ax br) (bk_cx br) (bk_bx br) /\ f (bk_cx br) < f (bk_bx br) <= f (bk_ax br)).
Proof.
  intros f a b N. unfold BracketMinimum. onum.
  assert (G : forall ax bx, ax <> bx -> f bx <= f ax -> let br := bracketmin_loop Rarith f 200 ax bx (bx + GOLD Rarith * (bx - ax)) (f ax) (f bx) (f (bx + GOLD Rarith * (bx - ax))) in
    (bk_valid br = true -> brackets f br) /\ bk_fb br <= f ax /\ bk_fb br <= f bx /\ (bk_valid br = false -> inside (bk_ax br) (bk_cx br) (bk_bx br) /\ f (bk_cx br) < f (bk_bx br) <= f (bk_ax br))).
  { intros ax bx Hn Hf br. destruct (bracket_loop_inv f 200 ax bx (bx + GOLD Rarith * (bx - ax)) (f ax) (f bx) (f (bx + GOLD Rarith * (bx - ax)))) as (A1 & A2 & A3 & A4 & A5 & A6 & A7).
    - repeat split; auto. apply beyond. destruct (Rtotal_order ax bx) as [|[|]]; auto. easy.
    - fold br in A1, A2, A3, A4, A5, A6, A7. split; [intros V; rewrite V in A7; repeat split; auto|]. split; [lra|]. split; [lra|]. intros V. rewrite V in A7. split; auto. lra. }
  destruct (Rltb_spec (f a) (f b)) as [L|L].
  - destruct (G b a) as (A1 & A2 & A3 & A4); auto; lra.
  - destruct (G a b) as (A1 & A2 & A3 & A4); auto; lra.
Qed.
Print Assumptions C62_bracket.

(** a continuous function has a minimum strictly inside every bracket *)
Theorem C62_minimum_inside : forall f br, brackets f br -> (forall x, continuity_pt f x) ->
  exists m, inside (bk_ax br) (bk_cx br) m /\ (forall x, within (bk_ax br) (bk_cx br) x -> f m <= f x).
Proof.
  intros f br (I & Ea & Eb & Ec & La & Lc) C. set (lo := Rmin (bk_ax br) (bk_cx br)). set (hi := Rmax (bk_ax br) (bk_cx br)).
  assert (Hlh : lo <= hi) by (unfold lo, hi; eapply Rle_trans; [apply Rmin_l|apply Rmax_l]).
  destruct (continuity_ab_min f lo hi Hlh) as (m & Hm & Hr); [auto|].
  assert (HW : forall x, within (bk_ax br) (bk_cx br) x <-> lo <= x <= hi). { intros x. unfold within, lo, hi, Rmin, Rmax. destruct (Rle_dec (bk_ax br) (bk_cx br)); lra. }
  assert (HI : forall x, inside (bk_ax br) (bk_cx br) x <-> lo < x < hi). { intros x. unfold inside, lo, hi, Rmin, Rmax. destruct (Rle_dec (bk_ax br) (bk_cx br)); lra. }
  pose proof (proj1 (HI _) I) as HB.
  assert (Ends : forall x, x = lo \/ x = hi -> f (bk_bx br) <= f x). { intros x Hx. unfold lo, hi, Rmin, Rmax in Hx. destruct (Rle_dec (bk_ax br) (bk_cx br)), Hx; subst x; lra. }
  destruct (Rlt_dec lo m); [destruct (Rlt_dec m hi)|].
  - exists m. rewrite HI. split; [lra|]. intros x Hx. apply Hm. now apply HW.
  - exists (bk_bx br). split; auto. intros x Hx. apply HW in Hx. specialize (Hm x Hx). specialize (Ends m ltac:(right; lra)). lra.
  - exists (bk_bx br). split; auto. intros x Hx. apply HW in Hx. specialize (Hm x Hx). specialize (Ends m ltac:(left; lra)). lra.
Qed.
Print Assumptions C62_minimum_inside.

Lemma bracket_loop_done : forall f n ax bx cx fa fb fc, fb <= fc -> bracketmin_loop Rarith f n ax bx cx fa fb fc = mkBracket ax bx cx fa fb fc true.
Proof. intros f n ax bx cx fa fb fc H. destruct n; cbn [bracketmin_loop]; onum; destruct (Rltb_spec fc fb); auto; lra. Qed.
(** Equal starting points are not refused: for every function the "valid" bracket is three copies of the point. *)
Theorem C62_equal_bounds_refuted : forall f a, BracketMinimum Rarith f a a = mkBracket a a a (f a) (f a) (f a) true.
Proof.
  intros f a. unfold BracketMinimum. onum. destruct (Rltb_spec (f a) (f a)) as [L|_]; [lra|]. replace (a + GOLD Rarith * (a - a)) with a by ring.
  apply bracket_loop_done. lra.
Qed.
Print Assumptions C62_equal_bounds_refuted.
(** The documented strict inequality fb < min(fa, fc) fails: on a constant function the result is valid with three equal values. *)
Theorem C62_strict_refuted : forall c a b, let br := BracketMinimum Rarith (fun _ => c) a b in bk_valid br = true /\ bk_fa br = bk_fb br /\ bk_fc br = bk_fb br.
Proof.
  intros c a b. unfold BracketMinimum. onum. destruct (Rltb_spec c c) as [L|_]; [lra|]. rewrite bracket_loop_done by lra. cbn [bk_fa bk_fb bk_fc bk_valid]. auto.
Qed.
Print Assumptions C62_strict_refuted.

(** ** Golden section search *)
Definition st4 : Type := (R * R * R * R)%type.
Definition gnext (f : R -> R) (s : st4) : st4 :=
  let '(x0, x1, x2, x3) := s in
  if Rltb (f x2) (f x1) then (x1, x2, GR Rarith * x2 + GC Rarith * x3, x3) else (x0, GR Rarith * x1 + GC Rarith * x0, x1, x2).
Definition gloop (fuel : nat) (f : R -> R) (tol : R) (it : nat) (s : st4) : res (minres (T := R)) :=
  let '(x0, x1, x2, x3) := s in golden_loop Rarith fuel f tol it x0 x1 x2 x3 (f x1) (f x2).
Definition gwidth (s : st4) : R := let '(x0, _, _, x3) := s in Rabs (x3 - x0).
Definition gstop (tol : R) (s : st4) : Prop := let '(x0, x1, x2, x3) := s in Rabs (x3 - x0) <= tol * (Rabs x1 + Rabs x2).
Definition gbest (f : R -> R) (it : nat) (s : st4) : minres := let '(x0, x1, x2, x3) := s in if Rltb (f x1) (f x2) then mkMin x1 (f x1) it true else mkMin x2 (f x2) it true.
Lemma gloop_eq : forall fuel f tol it s, (gstop tol s /\ gloop fuel f tol it s = Ok (gbest f it s)) \/
  (~ gstop tol s /\ gloop fuel f tol it s = match fuel with O => NoFuel | S k => gloop k f tol (S it) (gnext f s) end).
Proof.
  intros fuel f tol it [[[x0 x1] x2] x3]. unfold gloop, gstop, gbest, gnext. destruct fuel as [|k]; cbn [golden_loop]; onum; destruct (Rltb_spec (tol * (Rabs x1 + Rabs x2)) (Rabs (x3 - x0))) as [L|L].
  - right. split; [lra|auto].
  - left. split; [lra|]. destruct (Rltb (f x1) (f x2)); auto.
  - right. split; [lra|]. destruct (Rltb (f x2) (f x1)); auto.
  - left. split; [lra|]. destruct (Rltb (f x1) (f x2)); auto.
Qed.
(** the four points are strictly ordered, in either direction *)
Definition ord4 (s : st4) : Prop := let '(x0, x1, x2, x3) := s in x0 < x1 < x2 /\ x2 < x3 \/ x3 < x2 < x1 /\ x1 < x0.
Lemma gnext_ord : forall f s, ord4 s -> ord4 (gnext f s).
Proof. intros f [[[x0 x1] x2] x3] H. unfold gnext, ord4 in *. destruct (Rltb (f x2) (f x1)); rewrite GR_val, GC_val; lra. Qed.
(** every four steps shrink the interval by a factor 0.62 *)
Lemma gnext4 : forall f s, ord4 s -> gwidth (gnext f (gnext f (gnext f (gnext f s)))) <= 62 / 100 * gwidth s.
Proof.
  intros f [[[x0 x1] x2] x3] H. cbn [gnext].
  assert (P : forall s, ord4 s -> (let '(x0, _, _, x3) := s in gwidth s = x3 - x0 /\ x0 < x3) \/ (let '(x0, _, _, x3) := s in gwidth s = x0 - x3 /\ x3 < x0)).
  { intros [[[y0 y1] y2] y3] Hs. unfold ord4, gwidth in *. destruct Hs; [left; rewrite Rabs_right by lra|right; rewrite Rabs_left by lra]; lra. }
  assert (Q : forall s, gwidth s = Rabs (let '(x0, _, _, x3) := s in x3 - x0)) by (intros [[[? ?] ?] ?]; auto).
  assert (B : forall a w, (a <= w /\ - a <= w) -> Rabs a <= w) by (intros a w [? ?]; unfold Rabs; destruct (Rcase_abs a); lra).
  rewrite !Q. destruct H as [H|H]; [rewrite (Rabs_right (x3 - x0)) by lra|rewrite (Rabs_left (x3 - x0)) by lra];
  repeat match goal with |- context [Rltb ?a ?b] => destruct (Rltb a b); cbn [gnext] end; apply B; rewrite ?GR_val, ?GC_val; lra.
Qed.
(** results *)
Lemma gloop_inv : forall (I : st4 -> Prop) f tol, (forall s, I s -> I (gnext f s)) -> forall fuel it s r, I s -> gloop fuel f tol it s = Ok r ->
  exists s' it', I s' /\ gstop tol s' /\ r = gbest f it' s'.
Proof.
  intros I f tol HI fuel. induction fuel as [|k IH]; intros it s r Hs E.
  - destruct (gloop_eq 0 f tol it s) as [[S1 S2]|[S1 S2]]; rewrite S2 in E; [|discriminate]. injection E as <-. eauto.
  - destruct (gloop_eq (S k) f tol it s) as [[S1 S2]|[S1 S2]]; rewrite S2 in E; [injection E as <-; eauto|]. apply (IH (S it) (gnext f s)); auto.
Qed.
Lemma gbest_val : forall f it s, let r := gbest f it s in let '(x0, x1, x2, x3) := s in
  mr_conv r = true /\ mr_fmin r = f (mr_xmin r) /\ (mr_xmin r = x1 \/ mr_xmin r = x2) /\ mr_fmin r <= f x1 /\ mr_fmin r <= f x2.
Proof. intros f it [[[x0 x1] x2] x3]. cbn. destruct (Rltb_spec (f x1) (f x2)); cbn; repeat split; auto; lra. Qed.
Definition ginv (f : R -> R) (a c v : R) (s : st4) : Prop := ord4 s /\ let '(x0, x1, x2, x3) := s in within a c x0 /\ within a c x3 /\ (f x1 <= v \/ f x2 <= v).
Lemma ginv_next : forall f a c v s, ginv f a c v s -> ginv f a c v (gnext f s).
Proof.
  intros f a c v s (O & H). split; [now apply gnext_ord|]. destruct s as [[[x0 x1] x2] x3]. unfold gnext. destruct H as (H1 & H2 & H3).
  assert (W1 : within a c x1) by (unfold within, ord4 in *; lra). assert (W2 : within a c x2) by (unfold within, ord4 in *; lra).
  destruct (Rltb_spec (f x2) (f x1)) as [L|L]; repeat split; auto; [left; lra|right; lra].
Qed.
(** the minimiser stays between the outer points *)
Definition uinv (f : R -> R) (a c m : R) (s : st4) : Prop := let '(x0, _, _, x3) := s in within x0 x3 m.
Lemma uinv_next : forall f a c v m s, unimodal f m a c -> ginv f a c v s -> uinv f a c m s -> uinv f a c m (gnext f s).
Proof.
  intros f a c v m [[[x0 x1] x2] x3] (U1 & U2) (O & H1 & H2 & _) Hm. unfold gnext, uinv in *.
  assert (W1 : within a c x1) by (unfold within, ord4 in *; lra). assert (W2 : within a c x2) by (unfold within, ord4 in *; lra).
  destruct (Rltb_spec (f x2) (f x1)) as [L|L]; unfold ord4 in O.
  - destruct O as [O|O].
    + destruct (Rlt_dec m x1) as [C|C]; [|unfold within in *; lra]. pose proof (U2 x1 x2 W1 W2 ltac:(lra) ltac:(lra)). lra.
    + destruct (Rlt_dec x1 m) as [C|C]; [|unfold within in *; lra]. pose proof (U1 x2 x1 W2 W1 ltac:(lra) ltac:(lra)). lra.
  - destruct O as [O|O].
    + destruct (Rlt_dec x2 m) as [C|C]; [|unfold within in *; lra]. pose proof (U1 x1 x2 W1 W2 ltac:(lra) ltac:(lra)). lra.
    + destruct (Rlt_dec m x2) as [C|C]; [|unfold within in *; lra]. pose proof (U2 x2 x1 W2 W1 ltac:(lra) ltac:(lra)). lra.
Qed.
(** the starting points *)
Lemma golden_start : forall f br tol, bk_valid br = true -> 0 < tol -> inside (bk_ax br) (bk_cx br) (bk_bx br) ->
  exists s, (forall fuel, GoldenSectionSearch Rarith fuel f br tol = gloop fuel f tol 0 s) /\ ginv f (bk_ax br) (bk_cx br) (f (bk_bx br)) s /\ (let '(x0, _, _, x3) := s in x0 = bk_ax br /\ x3 = bk_cx br).
Proof.
  intros f br tol V Ht I. unfold GoldenSectionSearch. rewrite V. onum. destruct (Rltb_spec 0 tol); [cbn [negb]|lra]. set (a := bk_ax br) in *. set (b := bk_bx br) in *. set (c := bk_cx br) in *.
  destruct (Rltb (Rabs (b - a)) (Rabs (c - b))).
  - exists (a, b, b + GC Rarith * (c - b), c). split; [reflexivity|]. split; [|auto]. split; [unfold ord4, inside in *; rewrite GC_val; lra|]. unfold within, inside in *. repeat split; lra.
  - exists (a, b - GC Rarith * (b - a), b, c). split; [reflexivity|]. split; [|auto]. split; [unfold ord4, inside in *; rewrite GC_val; lra|]. unfold within, inside in *. repeat split; lra.
Qed.

(** whatever the function, a result is a point of the bracket with its value, no higher than the middle point *)
Theorem C63_golden : forall fuel f br tol r, bk_valid br = true -> 0 < tol -> inside (bk_ax br) (bk_cx br) (bk_bx br) -> GoldenSectionSearch Rarith fuel f br tol = Ok r ->
  mr_conv r = true /\ mr_fmin r = f (mr_xmin r) /\ inside (bk_ax br) (bk_cx br) (mr_xmin r) /\ mr_fmin r <= f (bk_bx br).
Proof.
  intros fuel f br tol r V Ht I E. destruct (golden_start f br tol V Ht I) as (s & E' & G & _). rewrite E' in E.
  destruct (gloop_inv _ f tol (ginv_next f (bk_ax br) (bk_cx br) (f (bk_bx br))) fuel 0 s r G E) as (s' & it & G' & _ & ->).
  pose proof (gbest_val f it s') as B. cbv zeta in B. destruct s' as [[[x0 x1] x2] x3]. destruct B as (B1 & B2 & B3 & B4 & B5). destruct G' as (O & W0 & W3 & Hv).
  repeat split; auto; [|lra]. unfold ord4, within, inside in *. destruct B3 as [-> | ->]; lra.
Qed.
Print Assumptions C63_golden.

(** on a unimodal function the result is within the requested fractional tolerance of the minimiser *)
Theorem C63_golden_accuracy : forall fuel f br tol r m, bk_valid br = true -> 0 < tol < 1 -> inside (bk_ax br) (bk_cx br) (bk_bx br) ->
  within (bk_ax br) (bk_cx br) m -> unimodal f m (bk_ax br) (bk_cx br) -> GoldenSectionSearch Rarith fuel f br tol = Ok r ->
  Rabs (mr_xmin r - m) <= 2 * tol / (1 - tol) * Rabs (mr_xmin r).
Proof.
  intros fuel f br tol r m V Ht I Hm U E. destruct (golden_start f br tol V (proj1 Ht) I) as (s & E' & G & Es). rewrite E' in E.
  set (a := bk_ax br) in *. set (c := bk_cx br) in *. set (v := f (bk_bx br)) in *.
  destruct (gloop_inv (fun s => ginv f a c v s /\ uinv f a c m s) f tol) with (fuel := fuel) (it := 0%nat) (s := s) (r := r) as (s' & it & (G' & U') & S' & ->); auto.
  { intros t (T1 & T2). split; [now apply ginv_next|]. eapply uinv_next; eauto. }
  { split; auto. destruct s as [[[x0 x1] x2] x3]. destruct Es as (-> & ->). exact Hm. }
  pose proof (gbest_val f it s') as B. cbv zeta in B. destruct s' as [[[x0 x1] x2] x3]. destruct B as (_ & _ & B3 & _). destruct G' as (O & _). unfold gstop, uinv in *.
  set (x := mr_xmin (gbest f it (x0, x1, x2, x3))) in *. set (w := Rabs (x3 - x0)) in *.
  assert (Hw : 0 <= w) by apply Rabs_pos.
  assert (D : Rabs (x - m) <= w /\ Rabs x1 <= Rabs x + w /\ Rabs x2 <= Rabs x + w).
  { unfold w, ord4, within in *. destruct O as [O|O]; [rewrite (Rabs_right (x3 - x0)) by lra|rewrite (Rabs_left (x3 - x0)) by lra]; destruct B3 as [-> | ->];
      (repeat split; unfold Rabs; repeat destruct Rcase_abs; lra). }
  destruct D as (D1 & D2 & D3). assert (K : w * (1 - tol) <= 2 * tol * Rabs x). { assert (tol * (Rabs x1 + Rabs x2) <= tol * (2 * Rabs x + w + w)) by (apply Rmult_le_compat_l; lra).
    assert (D4 : Rabs x1 + Rabs x2 <= 2 * Rabs x + w). { unfold w, ord4 in *. destruct O as [O|O]; [rewrite (Rabs_right (x3 - x0)) by lra|rewrite (Rabs_left (x3 - x0)) by lra]; destruct B3 as [-> | ->]; unfold Rabs; repeat destruct Rcase_abs; lra. }
    assert (tol * (Rabs x1 + Rabs x2) <= tol * (2 * Rabs x + w)) by (apply Rmult_le_compat_l; lra). lra. }
  assert (w <= 2 * tol / (1 - tol) * Rabs x). { apply (Rmult_le_reg_r (1 - tol)); [lra|]. replace (2 * tol / (1 - tol) * Rabs x * (1 - tol)) with (2 * tol * Rabs x) by (field; lra). exact K. }
  lra.
Qed.
Print Assumptions C63_golden_accuracy.

(** it terminates on a unimodal function whose minimiser is not 0, and on every function when 0 is outside the bracket *)
Lemma golden_fuel : forall (I : st4 -> Prop) f tol d, (forall s, I s -> I (gnext f s)) -> (forall s, I s -> ord4 s) -> (forall s, I s -> gwidth s <= d -> gstop tol s) ->
  forall k it s, I s -> gwidth s * (62 / 100) ^ k <= d -> exists r, gloop (4 * k) f tol it s = Ok r.
Proof.
  intros I f tol d HI HO HS k. induction k as [|k IH]; intros it s Hs Hw.
  - destruct (gloop_eq (4 * 0) f tol it s) as [[_ E]|[N _]]; [eauto|]. exfalso. apply N, HS; auto. cbn in Hw. lra.
  - replace (4 * S k)%nat with (S (S (S (S (4 * k))))) by lia.
    destruct (gloop_eq (S (S (S (S (4 * k))))) f tol it s) as [[_ E]|[_ E]]; rewrite E; [eauto|]. set (s1 := gnext f s).
    destruct (gloop_eq (S (S (S (4 * k)))) f tol (S it) s1) as [[_ E1]|[_ E1]]; rewrite E1; [eauto|]. set (s2 := gnext f s1).
    destruct (gloop_eq (S (S (4 * k))) f tol (S (S it)) s2) as [[_ E2]|[_ E2]]; rewrite E2; [eauto|]. set (s3 := gnext f s2).
    destruct (gloop_eq (S (4 * k)) f tol (S (S (S it))) s3) as [[_ E3]|[_ E3]]; rewrite E3; [eauto|]. set (s4 := gnext f s3).
    apply IH. { unfold s4, s3, s2, s1. auto. }
    pose proof (gnext4 f s (HO _ Hs)) as G. fold s1 s2 s3 s4 in G. cbn [pow] in Hw. assert (0 <= (62 / 100) ^ k) by (apply pow_le; lra). nra.
Qed.
Lemma pow_small : forall w d, 0 < d -> exists k, w * (62 / 100) ^ k <= d.
Proof.
  intros w d Hd. destruct (Rle_dec w 0) as [|Hw]. { exists 0%nat. cbn. lra. }
  destruct (pow_lt_1_zero (62 / 100) ltac:(rewrite Rabs_right; lra) (d / w) ltac:(apply Rdiv_lt_0_compat; lra)) as (N & HN). exists N. specialize (HN N (Nat.le_refl N)).
  rewrite Rabs_right in HN by (apply Rle_ge, pow_le; lra). apply Rlt_le. apply (Rmult_lt_reg_r (/ w)); [apply Rinv_0_lt_compat; lra|]. replace (w * (62 / 100) ^ N * / w) with ((62 / 100) ^ N) by (field; lra). exact HN.
Qed.
Theorem C63_golden_terminates : forall f br tol, bk_valid br = true -> 0 < tol -> inside (bk_ax br) (bk_cx br) (bk_bx br) ->
  (~ within (bk_ax br) (bk_cx br) 0 \/ exists m, m <> 0 /\ within (bk_ax br) (bk_cx br) m /\ unimodal f m (bk_ax br) (bk_cx br)) ->
  exists fuel r, GoldenSectionSearch Rarith fuel f br tol = Ok r.
Proof.
  intros f br tol V Ht I H.
  destruct (golden_start f br tol V Ht I) as (s & E' & G & Es). set (a := bk_ax br) in *. set (c := bk_cx br) in *. set (v := f (bk_bx br)) in *.
  assert (K : exists (J : st4 -> Prop) d, 0 < d /\ (forall s, J s -> J (gnext f s)) /\ (forall s, J s -> ord4 s) /\ (forall s, J s -> gwidth s <= d -> gstop tol s) /\ J s).
  { destruct H as [H|(m & Hm0 & Hm & U)].
    - set (z := Rmin (Rabs a) (Rabs c)). assert (Hz : 0 < z). { unfold z. apply Rmin_glb_lt; apply Rabs_pos_lt; unfold within in H; intros E; apply H; rewrite E; unfold inside in I; lra. }
      exists (ginv f a c v), (tol * (2 * z)). split; [nra|]. split; [apply ginv_next|]. split; [intros ? (? & _); auto|]. split; auto.
      intros [[[x0 x1] x2] x3] (O & W0 & W3 & _) Hw. unfold gwidth, gstop in *. eapply Rle_trans; [exact Hw|]. apply Rmult_le_compat_l; [lra|].
      assert (Z : forall x, within a c x -> z <= Rabs x). { intros x Hx. unfold z, Rmin. unfold within in *. destruct (Rle_dec (Rabs a) (Rabs c)) as [Q|Q]; revert Q; unfold Rabs; repeat destruct Rcase_abs; lra. }
      assert (within a c x1) by (unfold within, ord4 in *; lra). assert (within a c x2) by (unfold within, ord4 in *; lra). pose proof (Z x1 H0). pose proof (Z x2 H1). lra.
    - exists (fun s => ginv f a c v s /\ uinv f a c m s). pose proof (Rabs_pos_lt m Hm0) as P. set (d := tol * 2 * Rabs m / (1 + 2 * tol)). assert (Hd : 0 < d) by (unfold d; apply Rdiv_lt_0_compat; nra). exists d. split; [exact Hd|].
      split; [intros t (T1 & T2); split; [now apply ginv_next|eapply uinv_next; eauto]|]. split; [intros ? ((? & _) & _); auto|]. split.
      + intros [[[x0 x1] x2] x3] ((O & _) & Hu) Hw. unfold gwidth, gstop, uinv in *. set (w := Rabs (x3 - x0)) in *.
        assert (D : Rabs m - w <= Rabs x1 /\ Rabs m - w <= Rabs x2). { unfold w, ord4, within in *. destruct O as [O|O]; [rewrite (Rabs_right (x3 - x0)) by lra|rewrite (Rabs_left (x3 - x0)) by lra]; split; unfold Rabs; repeat destruct Rcase_abs; lra. }
        assert (E : d * (1 + 2 * tol) = tol * 2 * Rabs m) by (unfold d; field; lra).
        assert (tol * (2 * Rabs m - 2 * w) <= tol * (Rabs x1 + Rabs x2)) by (apply Rmult_le_compat_l; lra).
        assert (w * (1 + 2 * tol) <= d * (1 + 2 * tol)) by (apply Rmult_le_compat_r; lra). lra.
      + split; auto. destruct s as [[[x0 x1] x2] x3]. destruct Es as (-> & ->). exact Hm. }
  destruct K as (J & d & Hd & J1 & J2 & J3 & J4). destruct (pow_small (gwidth s) d Hd) as (k & Hk). destruct (golden_fuel J f tol d J1 J2 J3 k 0 s J4 Hk) as (r & Er). exists (4 * k)%nat, r.
  now rewrite E'.
Qed.
Print Assumptions C63_golden_terminates.

(** When the minimiser is 0 the search never stops: the stopping test is relative to |x1| + |x2| with no absolute term, so no number of
    iterations is enough (golden section has no iteration limit). In floating point it runs until the points underflow or coincide. *)
Theorem C63_golden_zero_refuted : forall fuel f br tol, bk_valid br = true -> 0 < tol <= 1 / 2 -> inside (bk_ax br) (bk_cx br) (bk_bx br) ->
  within (bk_ax br) (bk_cx br) 0 -> unimodal f 0 (bk_ax br) (bk_cx br) -> GoldenSectionSearch Rarith fuel f br tol = NoFuel.
Proof.
  intros fuel f br tol V Ht I Hm U. destruct (golden_start f br tol V (proj1 Ht) I) as (s & E' & G & Es). rewrite E'.
  set (a := bk_ax br) in *. set (c := bk_cx br) in *. set (v := f (bk_bx br)) in *.
  assert (Hu : uinv f a c 0 s). { destruct s as [[[x0 x1] x2] x3]. destruct Es as (-> & ->). exact Hm. }
  clear E' Es. generalize 0%nat as it. revert s G Hu. induction fuel as [|k IH]; intros s G Hu it.
  all: assert (N : ~ gstop tol s) by (destruct s as [[[x0 x1] x2] x3]; destruct G as (O & _); unfold uinv, gstop, ord4, within in *; intros S;
    assert (D : Rabs x1 < Rabs (x3 - x0) /\ Rabs x2 < Rabs (x3 - x0)) by (destruct O as [O|O]; [rewrite (Rabs_right (x3 - x0)) by lra|rewrite (Rabs_left (x3 - x0)) by lra]; split; unfold Rabs; destruct Rcase_abs; lra);
    pose proof (Rabs_pos x1); pose proof (Rabs_pos x2); nra).
  - destruct (gloop_eq 0 f tol it s) as [[S _]|[_ E]]; [easy|exact E].
  - destruct (gloop_eq (S k) f tol it s) as [[S _]|[_ E]]; [easy|]. rewrite E. apply IH; [now apply ginv_next|eapply uinv_next; eauto].
Qed.
Print Assumptions C63_golden_zero_refuted.

(** the version that brackets first never does worse than either starting point *)
Theorem C63_golden_ab : forall fuel f a b tol r, GoldenSectionSearchAB Rarith fuel f a b tol = Ok r ->
  0 < tol /\ mr_conv r = true /\ mr_fmin r = f (mr_xmin r) /\ mr_fmin r <= f a /\ mr_fmin r <= f b.
Proof.
  intros fuel f a b tol r E. unfold GoldenSectionSearchAB in E. onum. destruct (Rltb_spec 0 tol) as [Ht|]; cbn [negb] in E; [|discriminate]. split; auto.
  destruct (Req_dec a b) as [->|N].
  - rewrite C62_equal_bounds_refuted in E. cbn [bk_valid negb] in E. unfold GoldenSectionSearch in E. onum. destruct (Rltb_spec 0 tol); [|lra]. cbn [negb bk_ax bk_bx bk_cx bk_valid] in E.
    destruct (Rltb_spec (Rabs (b - b)) (Rabs (b - b))); [lra|]. replace (b - GC Rarith * (b - b)) with b in E by ring.
    destruct (gloop_eq fuel f tol 0 (b, b, b, b)) as [[_ E2]|[N _]].
    + unfold gloop in E2. rewrite E2 in E. injection E as <-. unfold gbest. destruct (Rltb_spec (f b) (f b)); cbn [mr_conv mr_fmin mr_xmin]; repeat split; lra.
    + exfalso. apply N. unfold gstop. replace (b - b) with 0 by ring. rewrite Rabs_R0. pose proof (Rabs_pos b). nra.
  - destruct (C62_bracket f a b N) as (B1 & B2 & B3 & _). set (br := BracketMinimum Rarith f a b) in *. destruct (bk_valid br) eqn:V; cbn [negb] in E; [|discriminate].
    destruct (B1 eq_refl) as (I & _ & Eb & _). destruct (C63_golden fuel f br tol r V Ht I E) as (G1 & G2 & _ & G4). repeat split; auto; lra.
Qed.
Print Assumptions C63_golden_ab.
Theorem C63_golden_maximize : forall fuel f a b tol r, GoldenSectionMaximize Rarith fuel f a b tol = Ok r ->
  mr_conv r = true /\ mr_fmin r = f (mr_xmin r) /\ f a <= mr_fmin r /\ f b <= mr_fmin r.
Proof.
  intros fuel f a b tol r E. unfold GoldenSectionMaximize in E. destruct (GoldenSectionSearchAB Rarith fuel (fun x => nopp (aops Rarith) (f x)) a b tol) as [r0| | |] eqn:E0; cbn [bind] in E; try discriminate.
  injection E as <-. apply C63_golden_ab in E0. cbn [mr_conv mr_fmin mr_xmin]. onum. destruct E0 as (_ & A1 & A2 & A3 & A4). repeat split; auto; lra.
Qed.
Print Assumptions C63_golden_maximize.
(** what is refused *)
Theorem C63_golden_errors : forall fuel f br tol a b,
  (tol <= 0 \/ bk_valid br = false -> GoldenSectionSearch Rarith fuel f br tol = Throw InvalidArgument) /\
  (tol <= 0 -> GoldenSectionSearchAB Rarith fuel f a b tol = Throw InvalidArgument) /\
  (0 < tol -> bk_valid (BracketMinimum Rarith f a b) = false -> GoldenSectionSearchAB Rarith fuel f a b tol = Throw NumericalError).
Proof.
  intros fuel f br tol a b. unfold GoldenSectionSearch, GoldenSectionSearchAB. onum. destruct (Rltb_spec 0 tol); cbn [negb]; repeat split; auto; try lra.
  - intros [H|H]; [lra|]. now rewrite H.
  - intros _ H. now rewrite H.
Qed.
Print Assumptions C63_golden_errors.
