(** * C48: the patterns of the type inference, and their meaning *)

From Coq Require Import Ascii String List Bool Arith ZArith Lia.
From Verif Require Import Base Data_Model.
Import ListNotations.
Local Open Scope nat_scope.
Local Open Scope list_scope.

(** ** Specification: the language of a regular expression *)
Inductive matches : re -> str -> Prop :=
| m_eps : matches REps []
| m_cls : forall p c, p c = true -> matches (RCls p) [c]
| m_cat : forall a b s t, matches a s -> matches b t -> matches (RCat a b) (s ++ t)
| m_altl : forall a b s, matches a s -> matches (RAlt a b) s
| m_altr : forall a b s, matches b s -> matches (RAlt a b) s
| m_star0 : forall a, matches (RStar a) []
| m_star : forall a s t, matches a s -> matches (RStar a) t -> matches (RStar a) (s ++ t).

Lemma m_cat_inv : forall a b s, matches (RCat a b) s <-> exists x y, s = x ++ y /\ matches a x /\ matches b y.
Proof. split; intros H; [inversion H; subst; eauto|]. destruct H as (x & y & -> & A & B). constructor; auto. Qed.
Lemma nullable_ok : forall r, nullable r = true <-> matches r [].
Proof.
  induction r; cbn; split; intros H; try discriminate; try (constructor; fail); try (inversion H; fail).
  - apply andb_true_iff in H. destruct H as [A B]. apply (m_cat r1 r2 [] []); [apply IHr1, A|apply IHr2, B].
  - inversion H; subst. match goal with E : _ ++ _ = [] |- _ => apply app_eq_nil in E; destruct E; subst end. apply andb_true_iff. split; [apply IHr1|apply IHr2]; auto.
  - apply orb_true_iff in H. destruct H; [apply m_altl, IHr1|apply m_altr, IHr2]; auto.
  - apply orb_true_iff. inversion H; subst; [left; apply IHr1|right; apply IHr2]; auto.
Qed.
Lemma star_cons : forall a c s, matches (RStar a) (c :: s) -> exists s1 s2, s = s1 ++ s2 /\ matches a (c :: s1) /\ matches (RStar a) s2.
Proof.
  intros a c s H. remember (RStar a) as r eqn:ER. remember (c :: s) as w eqn:EW. revert s EW. induction H; intros w0 EW; try discriminate.
  injection ER as ->. destruct s as [|x s].
  - cbn in EW. subst t. apply IHmatches2; auto.
  - cbn in EW. injection EW as -> <-. exists s, t. auto.
Qed.
Lemma deriv_ok : forall r c s, matches (deriv c r) s <-> matches r (c :: s).
Proof.
  induction r; intros c s; cbn [deriv].
  - split; intros H; inversion H.
  - split; intros H; inversion H.
  - destruct (p c) eqn:E; split; intros H; inversion H; subst; try (constructor; auto; fail). congruence.
  - split; intros H.
    + assert (G : matches (RCat (deriv c r1) r2) s -> matches (RCat r1 r2) (c :: s)).
      { intros X. apply m_cat_inv in X. destruct X as (x & t & -> & A & B). apply (m_cat r1 r2 (c :: x) t); auto. apply IHr1; auto. }
      destruct (nullable r1) eqn:E; [|auto]. inversion H; subst; [auto|]. apply (m_cat r1 r2 [] (c :: s)); [apply nullable_ok, E|apply IHr2; auto].
    + apply m_cat_inv in H. destruct H as (x & t & E1 & A & B). destruct x as [|y x]; cbn in E1.
      * assert (E : nullable r1 = true) by (apply nullable_ok; auto). rewrite E. subst t. apply m_altr, IHr2; auto.
      * injection E1 as <- ->. assert (X : matches (RCat (deriv c r1) r2) (x ++ t)) by (constructor; auto; apply IHr1; auto). destruct (nullable r1); [apply m_altl|]; auto.
  - split; intros H; inversion H; subst; (apply m_altl; apply IHr1; auto; fail) || (apply m_altr; apply IHr2; auto).
  - split; intros H.
    + inversion H; subst. apply (m_star r (c :: s0) t); auto. apply IHr; auto.
    + apply star_cons in H. destruct H as (s1 & s2 & -> & A & B). constructor; auto. apply IHr; auto.
Qed.
(** the matcher decides the language *)
Theorem C48_regex : forall s r, regex_match s r = true <-> matches r s.
Proof. induction s as [|c s IH]; intros r; cbn [regex_match]; [apply nullable_ok|]. rewrite IH. apply deriv_ok. Qed.
Print Assumptions C48_regex.

(** ** What the patterns mean *)
Definition digits (s : str) : Prop := Forall (fun c => isdigit c = true) s.
Definition one_of (l : string) (c : ascii) : Prop := In c (L l).
Definition sign (s : str) : Prop := s = [] \/ s = ["-"%char] \/ s = ["+"%char].
Definition int_text (s : str) : Prop := exists sg ds, s = sg ++ ds /\ sign sg /\ digits ds /\ ds <> [].
Definition exponent (s : str) : Prop := s = [] \/ exists e sg ds, s = e :: sg ++ ds /\ one_of "eE" e /\ sign sg /\ digits ds /\ ds <> [].
(** digits with at most one point among or around them, at least one digit *)
Definition mantissa (s : str) : Prop := (exists a b, (s = a ++ b \/ s = a ++ "."%char :: b) /\ digits a /\ digits b /\ a <> []) \/ exists b, s = "."%char :: b /\ digits b /\ b <> [].
Definition real_text (s : str) : Prop := exists sg m e, s = sg ++ m ++ e /\ sign sg /\ mantissa m /\ exponent e.
Definition digits_n (lo hi : nat) (s : str) : Prop := digits s /\ lo <= length s <= hi.
Definition date_text (s : str) : Prop := exists y s1 m s2 d, s = y ++ s1 :: m ++ s2 :: d /\ digits_n 4 4 y /\ digits_n 1 2 m /\ digits_n 1 2 d /\ one_of "-/" s1 /\ one_of "-/" s2.
(** hh:mm with an optional :ss *)
Definition clock_text (s : str) : Prop := exists h m sec, s = h ++ ":"%char :: m ++ sec /\ digits_n 1 2 h /\ digits_n 2 2 m /\ (sec = [] \/ exists d, sec = ":"%char :: d /\ digits_n 2 2 d).
Definition time_text (s : str) : Prop := exists c f, s = c ++ f /\ clock_text c /\ (f = [] \/ exists d, f = "."%char :: d /\ digits d /\ d <> []).
Definition datetime_text (s : str) : Prop := exists d sep c, s = d ++ sep :: c /\ date_text d /\ one_of "T " sep /\ clock_text c.

Lemma m_alt_inv : forall a b s, matches (RAlt a b) s <-> matches a s \/ matches b s.
Proof. split; intros H; [inversion H; auto|]. destruct H; [apply m_altl|apply m_altr]; auto. Qed.
Lemma m_eps_inv : forall s, matches REps s <-> s = [].
Proof. split; intros H; [inversion H; auto|subst; constructor]. Qed.
Lemma m_cls_inv : forall p s, matches (RCls p) s <-> exists c, s = [c] /\ p c = true.
Proof. split; intros H; [inversion H; subst; eauto|]. destruct H as (c & -> & H). constructor; auto. Qed.
Lemma m_one_inv : forall l s, matches (rone l) s <-> exists c, s = [c] /\ one_of l c.
Proof.
  intros l s. unfold rone. rewrite m_cls_inv. split; intros (c & -> & H); exists c; split; auto; unfold one_of in *.
  - apply existsb_exists in H. destruct H as (x & H & E). apply Ascii.eqb_eq in E. subst. auto.
  - apply existsb_exists. exists c. split; auto. apply Ascii.eqb_refl.
Qed.
Lemma m_digit_inv : forall s, matches rdigit s <-> digits_n 1 1 s.
Proof.
  intros s. unfold rdigit. rewrite m_cls_inv. split.
  - intros (c & -> & H). split; [repeat constructor; auto|cbn; lia].
  - intros [H HL]. destruct s as [|c [|c2 s]]; cbn in HL; try lia. inversion H; subst. eauto.
Qed.
Lemma m_star_digit : forall s, matches (RStar rdigit) s <-> digits s.
Proof.
  split.
  - intros H. remember (RStar rdigit) as r. induction H; try discriminate; [constructor|]. injection Heqr as ->. apply Forall_app. apply m_digit_inv in H. destruct H as [H _]. split; [exact H|apply IHmatches2; reflexivity].
  - induction s as [|c s IH]; intros H; [constructor|]. inversion H; subst. apply (m_star rdigit [c] s); [constructor; auto|auto].
Qed.
Lemma m_plus_digit : forall s, matches (rplus rdigit) s <-> digits s /\ s <> [].
Proof.
  intros s. unfold rplus. rewrite m_cat_inv. split.
  - intros (x & y & -> & A & B). apply m_digit_inv in A. apply m_star_digit in B. destruct A as [A AL]. split; [apply Forall_app; auto|]. destruct x; cbn in AL; [lia|discriminate].
  - intros [H NE]. destruct s as [|c s]; [contradiction|]. inversion H; subst. exists [c], s. split; [reflexivity|]. split; [constructor; auto|apply m_star_digit; auto].
Qed.
Lemma m_opt_inv : forall r s, matches (ropt r) s <-> matches r s \/ s = [].
Proof. intros. unfold ropt. rewrite m_alt_inv, m_eps_inv. tauto. Qed.
Lemma m_sign : forall s, matches (ropt (rone "-+")) s <-> sign s.
Proof.
  intros s. rewrite m_opt_inv, m_one_inv. unfold sign, one_of. cbn. split.
  - intros [(c & -> & [<-|[<-|[]]])|]; auto.
  - intros [->|[->| ->]]; eauto 6.
Qed.
Lemma m_cats_cons : forall r l s, matches (rcats (r :: l)) s <-> exists x y, s = x ++ y /\ matches r x /\ matches (rcats l) y.
Proof. intros. apply m_cat_inv. Qed.
Lemma m_cats_nil : forall s, matches (rcats []) s <-> s = [].
Proof. intros. apply m_eps_inv. Qed.
Lemma m_cats_one : forall r s, matches (rcats [r]) s <-> matches r s.
Proof.
  intros r s. rewrite m_cats_cons. split.
  - intros (x & y & -> & A & B). apply m_cats_nil in B. subst. rewrite app_nil_r. auto.
  - intros H. exists s, []. rewrite app_nil_r. split; [reflexivity|]. split; [auto|apply m_cats_nil; auto].
Qed.
Lemma m_cats_app : forall l l' s, matches (rcats (l ++ l')) s <-> exists x y, s = x ++ y /\ matches (rcats l) x /\ matches (rcats l') y.
Proof.
  induction l as [|r l IH]; intros l' s; cbn [app].
  - split.
    + intros H. exists [], s. split; [reflexivity|]. split; [apply m_cats_nil; auto|auto].
    + intros (x & y & -> & A & B). apply m_cats_nil in A. subst. auto.
  - rewrite m_cats_cons. split.
    + intros (x & y & -> & A & B). apply IH in B. destruct B as (x' & y' & -> & B & C). exists (x ++ x'), y'. rewrite app_assoc. split; [reflexivity|]. split; [|auto]. apply m_cats_cons. eauto.
    + intros (x & y & -> & A & B). apply m_cats_cons in A. destruct A as (x1 & x2 & -> & A1 & A2). exists x1, (x2 ++ y). rewrite <- app_assoc. split; [reflexivity|]. split; [auto|]. apply IH. eauto.
Qed.
Lemma digits_n_app : forall a b x y, digits_n a a x -> digits_n b b y -> digits_n (a + b) (a + b) (x ++ y).
Proof. intros a b x y [A B] [C E]. split; [apply Forall_app; auto|]. rewrite app_length. lia. Qed.
Lemma m_two : forall s, matches (rcats [rdigit; rdigit]) s <-> digits_n 2 2 s.
Proof.
  intros s. rewrite m_cats_cons. setoid_rewrite m_cats_one. setoid_rewrite m_digit_inv. split.
  - intros (x & y & -> & A & B). exact (digits_n_app 1 1 x y A B).
  - intros [A B]. destruct s as [|c1 [|c2 [|c3 s]]]; cbn in B; try lia. inversion A as [|? ? X1 A1]; inversion A1 as [|? ? X2 A2]; subst. exists [c1], [c2]. split; [reflexivity|]. split; (split; [repeat constructor; auto|cbn; lia]).
Qed.
Lemma m_one_two : forall s, matches (rcats [rdigit; ropt rdigit]) s <-> digits_n 1 2 s.
Proof.
  intros s. rewrite m_cats_cons. setoid_rewrite m_cats_one. setoid_rewrite m_opt_inv. setoid_rewrite m_digit_inv. split.
  - intros (x & y & -> & A & [B|B]); [destruct (digits_n_app 1 1 x y A B); split; auto; lia|]. subst. rewrite app_nil_r. destruct A. split; auto; lia.
  - intros [A B]. destruct s as [|c1 [|c2 [|c3 s]]]; cbn in B; try lia; inversion A as [|? ? X1 A1]; subst.
    + exists [c1], []. split; [reflexivity|]. split; [split; [repeat constructor; auto|cbn; lia]|auto].
    + inversion A1 as [|? ? X2 A2]; subst. exists [c1], [c2]. split; [reflexivity|]. split; [|left]; (split; [repeat constructor; auto|cbn; lia]).
Qed.
Lemma m_four : forall s, matches (rcats [rdigit; rdigit; rdigit; rdigit]) s <-> digits_n 4 4 s.
Proof.
  intros s. change [rdigit; rdigit; rdigit; rdigit] with ([rdigit; rdigit] ++ [rdigit; rdigit]). rewrite m_cats_app. setoid_rewrite m_two. split.
  - intros (x & y & -> & A & B). exact (digits_n_app 2 2 x y A B).
  - intros [A B]. destruct s as [|c1 [|c2 s]]; cbn in B; try lia. exists [c1; c2], s. split; [reflexivity|].
    inversion A as [|? ? X1 A1]; inversion A1 as [|? ? X2 A2]; subst. split; (split; [repeat (constructor; auto); auto|cbn; lia]).
Qed.

Lemma int_pattern : forall s, matches intPattern s <-> int_text s.
Proof.
  intros s. unfold intPattern, int_text. rewrite m_cats_cons. setoid_rewrite m_cats_one. setoid_rewrite m_sign. setoid_rewrite m_plus_digit.
  split; [intros (x & y & H)|intros (x & y & H)]; exists x, y; tauto.
Qed.
Lemma exponent_pattern : forall s, matches (ropt (rcats [rone "eE"; ropt (rone "-+"); rplus rdigit])) s <-> exponent s.
Proof.
  intros s. rewrite m_opt_inv, m_cats_cons. setoid_rewrite m_one_inv. setoid_rewrite m_cats_cons. setoid_rewrite m_cats_one. setoid_rewrite m_sign. setoid_rewrite m_plus_digit. unfold exponent. split.
  - intros [(x & y & -> & (e & -> & HE) & sg & ds & -> & A & B & C)|H]; [right|auto]. exists e, sg, ds. auto.
  - intros [H|(e & sg & ds & -> & HE & A & B & C)]; [auto|left]. exists [e], (sg ++ ds). split; [reflexivity|]. split; [eauto|]. exists sg, ds. auto.
Qed.
Lemma mantissa_pattern : forall s, matches (RAlt (rcats [rplus rdigit; ropt (rone "."); RStar rdigit]) (rcats [rone "."; rplus rdigit])) s <-> mantissa s.
Proof.
  intros s. rewrite m_alt_inv, !m_cats_cons. setoid_rewrite m_cats_cons. setoid_rewrite m_cats_one. setoid_rewrite m_cats_nil. setoid_rewrite m_opt_inv. setoid_rewrite m_one_inv. setoid_rewrite m_star_digit. setoid_rewrite m_plus_digit. unfold mantissa, one_of. cbn [L list_ascii_of_string In]. split.
  - intros [(a & y & -> & [A1 A2] & p & b & -> & HP & HB)|(x & y & -> & (c & -> & HC) & HY)].
    + left. exists a, b. split; [|auto]. destruct HP as [(c & -> & [<-|[]])| ->]; auto.
    + right. destruct HC as [<-|[]]. destruct HY as (x0 & y0 & -> & HY & ->). rewrite app_nil_r. exists x0. auto.
  - intros [(a & b & H & A1 & A2 & A3)|(b & -> & B1 & B2)].
    + left. destruct H as [->| ->].
      * exists a, b. repeat split; auto. exists [], b. auto.
      * exists a, ("."%char :: b). repeat split; auto. exists ["."%char], b. repeat split; auto. left. exists "."%char. auto.
    + right. exists ["."%char], b. split; [reflexivity|]. split; [exists "."%char; auto|]. exists b, []. rewrite app_nil_r. auto.
Qed.
Lemma real_pattern : forall s, matches realPattern s <-> real_text s.
Proof.
  intros s. unfold realPattern, real_text. rewrite m_cats_cons. setoid_rewrite m_cats_cons. setoid_rewrite m_cats_one. setoid_rewrite m_sign. setoid_rewrite mantissa_pattern. setoid_rewrite exponent_pattern. split.
  - intros (sg & y & -> & A & m & e & -> & B & C). exists sg, m, e. auto.
  - intros (sg & m & e & -> & A & B & C). exists sg, (m ++ e). repeat split; auto. exists m, e. auto.
Qed.
Lemma date_pattern : forall s, matches datePattern s <-> date_text s.
Proof.
  intros s. unfold datePattern, rdate, date_text.
  change [rdigit; rdigit; rdigit; rdigit; rone "-/"; rdigit; ropt rdigit; rone "-/"; rdigit; ropt rdigit]
    with ([rdigit; rdigit; rdigit; rdigit] ++ rone "-/" :: [rdigit; ropt rdigit] ++ rone "-/" :: [rdigit; ropt rdigit]).
  rewrite m_cats_app. setoid_rewrite m_cats_cons at 2. setoid_rewrite m_cats_app. setoid_rewrite m_four. setoid_rewrite m_one_two. setoid_rewrite m_cats_cons. setoid_rewrite m_one_two. setoid_rewrite m_one_inv. split.
  - intros (y & r & -> & HY & a & r2 & -> & (s1 & -> & HS1) & m & r3 & -> & HM & b & d & -> & (s2 & -> & HS2) & HD). exists y, s1, m, s2, d. repeat split; auto; try apply HY; try apply HM; apply HD.
  - intros (y & s1 & m & s2 & d & -> & HY & HM & HD & HS1 & HS2). exists y, (s1 :: m ++ s2 :: d). split; [reflexivity|]. split; [auto|]. exists [s1], (m ++ s2 :: d). split; [reflexivity|]. split; [eauto|].
    exists m, (s2 :: d). split; [reflexivity|]. split; [auto|]. exists [s2], d. split; [reflexivity|]. split; [eauto|auto].
Qed.
Lemma clock_pattern : forall s, matches (rcats rhm) s <-> clock_text s.
Proof.
  intros s. unfold rhm, clock_text.
  change [rdigit; ropt rdigit; rone ":"; rdigit; rdigit; ropt (rcats [rone ":"; rdigit; rdigit])]
    with ([rdigit; ropt rdigit] ++ rone ":" :: [rdigit; rdigit] ++ [ropt (rcats (rone ":" :: [rdigit; rdigit]))]).
  rewrite m_cats_app. setoid_rewrite m_cats_cons at 2. setoid_rewrite m_cats_app. setoid_rewrite m_two. setoid_rewrite m_one_two. setoid_rewrite m_cats_one. setoid_rewrite m_opt_inv. setoid_rewrite m_cats_cons. setoid_rewrite m_two. setoid_rewrite m_one_inv.
  unfold one_of. cbn [L list_ascii_of_string In]. split.
  - intros (h & r & -> & HH & a & r2 & -> & (c & -> & [<-|[]]) & m & sec & -> & HM & HS). exists h, m, sec. split; [reflexivity|]. split; [auto|]. split; [auto|].
    destruct HS as [(x & y & -> & (c & -> & [<-|[]]) & HD)|HS]; [right; exists y; auto|auto].
  - intros (h & m & sec & -> & HH & HM & HS). exists h, (":"%char :: m ++ sec). split; [reflexivity|]. split; [auto|]. exists [":"%char], (m ++ sec). split; [reflexivity|]. split; [exists ":"%char; auto|].
    exists m, sec. split; [reflexivity|]. split; [auto|]. destruct HS as [->|(d & -> & HD)]; [auto|left]. exists [":"%char], d. split; [reflexivity|]. split; [exists ":"%char; auto|auto].
Qed.
Lemma time_pattern : forall s, matches timePattern s <-> time_text s.
Proof.
  intros s. unfold timePattern, time_text. rewrite m_cats_app. setoid_rewrite clock_pattern. setoid_rewrite m_cats_one. setoid_rewrite m_opt_inv. setoid_rewrite m_cats_cons. setoid_rewrite m_cats_one. setoid_rewrite m_one_inv. setoid_rewrite m_plus_digit.
  unfold one_of. cbn [L list_ascii_of_string In]. split.
  - intros (c & f & -> & HC & HF). exists c, f. split; [reflexivity|]. split; [auto|]. destruct HF as [(x & y & -> & (p & -> & [<-|[]]) & HD)|HF]; [right; exists y; tauto|auto].
  - intros (c & f & -> & HC & HF). exists c, f. split; [reflexivity|]. split; [auto|]. destruct HF as [->|(d & -> & HD)]; [auto|left]. exists ["."%char], d. split; [reflexivity|]. split; [exists "."%char; auto|auto].
Qed.
Lemma datetime_pattern : forall s, matches dateTimePattern s <-> datetime_text s.
Proof.
  intros s. unfold dateTimePattern, datetime_text. change ([rone "T "] ++ rhm) with (rone "T " :: rhm). rewrite m_cats_app. setoid_rewrite (m_cats_cons (rone "T ") rhm). setoid_rewrite clock_pattern. setoid_rewrite m_one_inv.
  change (rcats rdate) with datePattern. setoid_rewrite date_pattern. split.
  - intros (d & r & -> & HD & x & c & -> & (sep & -> & HS) & HC). exists d, sep, c. auto.
  - intros (d & sep & c & -> & HD & HS & HC). exists d, (sep :: c). repeat split; auto. exists [sep], c. repeat split; auto. eauto.
Qed.
