(** * C78: Velocity Verlet and leapfrog *)
From Coq Require Import List Bool Arith ZArith Reals Lia Lra Psatz.
From Verif Require Import Base Num Mat_Model Mat_Proofs Mat_Props RootFind_Model RootFind_Proofs ODE_Model ODE_Spec ODE_Solution ODE_RK ODE_Fixed.
Import ListNotations.
Local Open Scope R_scope.

(** ** Specification *)
(** the state holds m positions, then their m velocities; the accelerations depend on the time and the positions only *)
Definition mechanical (m : nat) (acc : R -> vec -> nat -> R) (f : sys) : Prop :=
  forall t x, length x = (m + m)%nat -> length (f t x) = (m + m)%nat /\
    forall i, (i < m)%nat -> nth i (f t x) 0 = nth (m + i) x 0 /\ nth (m + i) (f t x) 0 = acc t (firstn m x) i.
(** q' = q + h v + h^2/2 a(t, q),  v' = v + h/2 (a(t, q) + a(t+h, q')) *)
Definition verlet (m : nat) (acc : R -> vec -> nat -> R) (t : R) (x : vec) (h : R) (y : vec) : Prop :=
  length y = (m + m)%nat /\ forall i, (i < m)%nat ->
    nth i y 0 = nth i x 0 + h * nth (m + i) x 0 + h * h / 2 * acc t (firstn m x) i /\
    nth (m + i) y 0 = nth (m + i) x 0 + h / 2 * (acc t (firstn m x) i + acc (t + h) (firstn m y) i).
(** m independent oscillators: q'' = - w_i^2 q *)
Definition oscillators (w : nat -> R) : R -> vec -> nat -> R := fun _ q i => - (w i * w i) * nth i q 0.
(** the energy of oscillator i, up to the factor 1/2 *)
Definition energy (m : nat) (w : nat -> R) (x : vec) (i : nat) : R := nth (m + i) x 0 * nth (m + i) x 0 + w i * w i * (nth i x 0 * nth i x 0).

(** ** Loops that fill a part of a vector *)
Lemma vset_Ok : forall (v : vec) i a, (i < length v)%nat -> exists w, vset v i a = Ok w /\ length w = length v /\ forall j, nth j w 0 = if (j =? i)%nat then a else nth j v 0.
Proof.
  intros v i a H. unfold vset. rewrite (proj2 (Nat.ltb_lt _ _) H). eexists. split; [reflexivity|]. split; [apply upd_length|]. intros j. destruct (Nat.eqb_spec j i) as [->|NE].
  - apply nth_error_nth. apply nth_error_upd_eq. exact H.
  - destruct (Nat.lt_ge_cases j (length v)) as [HJ|HJ].
    + apply nth_error_nth. rewrite nth_error_upd_neq by auto. apply nth_error_nth'. exact HJ.
    + rewrite !nth_overflow; auto. rewrite upd_length. exact HJ.
Qed.
Lemma part_Ok : forall n m off (body : vec -> nat -> res vec) val v, length v = n -> (off + m <= n)%nat -> (forall w i, length w = n -> (i < m)%nat -> body w i = vset w (off + i) (val i)) ->
  exists w, for_range 0 m body v = Ok w /\ length w = n /\ forall j, nth j w 0 = if andb (off <=? j)%nat (j <? off + m)%nat then val (j - off)%nat else nth j v 0.
Proof.
  intros n m off body val v HV HO HB.
  assert (W : wp (for_range 0 m body v) (fun w => length w = n /\ forall j, nth j w 0 = if andb (off <=? j)%nat (j <? off + m)%nat then val (j - off)%nat else nth j v 0)).
  { apply (for_range_inv _ body (fun k w => length w = n /\ forall j, nth j w 0 = if andb (off <=? j)%nat (j <? off + k)%nat then val (j - off)%nat else nth j v 0)); [lia| |].
    - split; [exact HV|]. intros j. destruct (Nat.leb_spec off j), (Nat.ltb_spec j (off + 0)); cbn [andb]; auto; lia.
    - intros i w _ HI (LW & HW). rewrite HB by auto. destruct (vset_Ok w (off + i) (val i) ltac:(lia)) as (w' & -> & L' & N'). cbn [wp]. split; [congruence|]. intros j. rewrite N'. destruct (Nat.eqb_spec j (off + i)) as [->|NE].
      + destruct (Nat.leb_spec off (off + i)), (Nat.ltb_spec (off + i) (off + (i + 1))); cbn [andb]; try lia. f_equal. lia.
      + rewrite HW. destruct (Nat.leb_spec off j), (Nat.ltb_spec j (off + i)), (Nat.ltb_spec j (off + (i + 1))); cbn [andb]; auto; lia. }
  destruct (for_range 0 m body v) as [w| | |]; cbn in W; try contradiction. exists w. split; [reflexivity|]. exact W.
Qed.
Lemma firstn_nth' : forall m (x : vec) i, (i < m)%nat -> nth i (firstn m x) 0 = nth i x 0.
Proof. induction m as [|m IH]; intros [|a x] [|i] H; cbn; auto; try lia. apply IH. lia. Qed.
Lemma firstn_eq : forall m (x y : vec), (m <= length x)%nat -> (m <= length y)%nat -> (forall i, (i < m)%nat -> nth i x 0 = nth i y 0) -> firstn m x = firstn m y.
Proof. intros m x y HX HY H. apply (vec_eq m); [rewrite firstn_length; lia|rewrite firstn_length; lia|]. intros i Hi. rewrite !firstn_nth' by auto. apply H. exact Hi. Qed.
Lemma div2 : forall m, Nat.div (m + m) 2 = m.
Proof. intros m. replace (m + m)%nat with (m * 2)%nat by lia. apply Nat.div_mul. lia. Qed.
Ltac inside := repeat match goal with
  | |- context [(?a <=? ?b)%nat] => first [rewrite (proj2 (Nat.leb_le a b)) by lia | rewrite (proj2 (Nat.leb_gt a b)) by lia]
  | |- context [(?a <? ?b)%nat] => first [rewrite (proj2 (Nat.ltb_lt a b)) by lia | rewrite (proj2 (Nat.ltb_ge a b)) by lia]
  | |- context [(?a - 0)%nat] => rewrite Nat.sub_0_r
  | |- context [(?m + ?i - ?m)%nat] => replace (m + i - m)%nat with i by lia
  end; cbn [andb].

Section Steps.
Variables (m : nat) (acc : R -> vec -> nat -> R) (f : sys).
Hypothesis (HF : mechanical m acc f).
Variables (t h : R) (x out err : vec).
Hypothesis (HX : length x = (m + m)%nat) (HO : length out = (m + m)%nat) (HE : length err = (m + m)%nat).
Theorem C78_verlet : exists y, VelocityVerletStep Rarith f (m + m)%nat t x (f t x) h out err = Ok (y, repeat 0 (m + m)) /\ verlet m acc t x h y.
Proof.
  unfold VelocityVerletStep. rewrite div2. destruct (HF t x HX) as (LF & VF). unfold fill at 1.
  destruct (part_Ok (m + m) m 0 (fun v i => e <- (xi <- vget x i;; v0 <- vget x (m + i);; a <- vget (f t x) (m + i);; Ok (nadd (aops Rarith) (nadd (aops Rarith) xi (nmul (aops Rarith) v0 h)) (nmul (aops Rarith) (nmul (aops Rarith) (nmul (aops Rarith) (ndiv (aops Rarith) (alit Rarith 1) (alit Rarith 2)) a) h) h)));; vset v i e)
    (fun i => nth i x 0 + h * nth (m + i) x 0 + h * h / 2 * acc t (firstn m x) i) out HO ltac:(lia)) as (y1 & E1 & L1 & N1).
  { intros w i LW HI. rewrite !vget_nth by lia. cbn [bind]. f_equal. rewrite (proj2 (VF i HI)). rnum. field. }
  rewrite E1. cbn [bind]. clear E1.
  destruct (part_Ok (m + m) m m (fun xt i => v <- vget x (m + i) ;; vset xt (m + i) v) (fun i => nth (m + i) x 0) y1 L1 ltac:(lia)) as (xt & E2 & L2 & N2). { intros w i LW HI. rewrite vget_nth by lia. reflexivity. }
  rewrite E2. cbn [bind]. clear E2. destruct (HF (nadd (aops Rarith) t h) xt L2) as (LF2 & VF2). change (nadd (aops Rarith) t h) with (t + h) in *.
  match goal with |- context [for_range 0 m ?b y1] => destruct (part_Ok (m + m) m m b (fun i => nth (m + i) x 0 + h / 2 * (acc t (firstn m x) i + acc (t + h) (firstn m xt) i)) y1 L1 ltac:(lia)) as (y2 & E3 & L3 & N3) end.
  { intros w i LW HI. rewrite !vget_nth by lia. cbn [bind]. rewrite (proj2 (VF i HI)), (proj2 (VF2 i HI)). f_equal. rnum. field. }
  rewrite E3. cbn [bind]. rewrite zero_Ok by exact HE. cbn [bind]. exists y2. split; [reflexivity|]. split; [exact L3|]. intros i Hi.
  assert (FQ : firstn m xt = firstn m y2). { apply firstn_eq; try lia. intros j HJ. rewrite N2, N3. inside. reflexivity. }
  rewrite <- FQ. rewrite !N3. inside. rewrite N1. inside. split; reflexivity.
Qed.
Theorem C78_leapfrog : exists y, LeapfrogStep Rarith f (m + m)%nat t x (f t x) h out err = Ok (y, repeat 0 (m + m)) /\ verlet m acc t x h y.
Proof.
  unfold LeapfrogStep. rewrite div2. destruct (HF t x HX) as (LF & VF).
  rewrite (fill_Ok m _ _ (fun i => nth (m + i) x 0 + h / 2 * acc t (firstn m x) i)); [|apply zeros_length|intros i HI; rewrite !vget_nth by lia; cbn [bind]; rewrite (proj2 (VF i HI)); f_equal; rnum; field].
  cbn [bind]. set (vh := map _ (seq 0 m)). assert (LV : length vh = m) by apply mk_length. unfold fill at 1.
  assert (NV : forall i, (i < m)%nat -> vget vh i = Ok (nth (m + i) x 0 + h / 2 * acc t (firstn m x) i)). { intros i HI. rewrite vget_nth by lia. unfold vh. rewrite mk_nth by exact HI. reflexivity. }
  match goal with |- context [for_range 0 m ?b out] => destruct (part_Ok (m + m) m 0 b (fun i => nth i x 0 + h * nth (m + i) x 0 + h * h / 2 * acc t (firstn m x) i) out HO ltac:(lia)) as (y1 & E1 & L1 & N1) end.
  { intros w i LW HI. rewrite vget_nth by lia. rewrite NV by exact HI. cbn [bind]. f_equal. rnum. field. }
  rewrite E1. cbn [bind]. clear E1.
  match goal with |- context [for_range 0 m ?b y1] => destruct (part_Ok (m + m) m m b (fun i => nth (m + i) x 0 + h / 2 * acc t (firstn m x) i) y1 L1 ltac:(lia)) as (xt & E2 & L2 & N2) end. { intros w i LW HI. rewrite NV by exact HI. reflexivity. }
  rewrite E2. cbn [bind]. clear E2. destruct (HF (nadd (aops Rarith) t h) xt L2) as (LF2 & VF2). change (nadd (aops Rarith) t h) with (t + h) in *.
  match goal with |- context [for_range 0 m ?b y1] => destruct (part_Ok (m + m) m m b (fun i => nth (m + i) x 0 + h / 2 * (acc t (firstn m x) i + acc (t + h) (firstn m xt) i)) y1 L1 ltac:(lia)) as (y2 & E3 & L3 & N3) end.
  { intros w i LW HI. rewrite NV by exact HI. rewrite vget_nth by lia. cbn [bind]. rewrite (proj2 (VF2 i HI)). f_equal. rnum. field. }
  rewrite E3. cbn [bind]. rewrite zero_Ok by exact HE. cbn [bind]. exists y2. split; [reflexivity|]. split; [exact L3|]. intros i Hi.
  assert (FQ : firstn m xt = firstn m y2). { apply firstn_eq; try lia. intros j HJ. rewrite N2, N3. inside. reflexivity. }
  rewrite <- FQ. rewrite !N3. inside. rewrite N1. inside. split; reflexivity.
Qed.
End Steps.

(** ** The step determines the new state *)
Lemma verlet_fun : forall m acc t x h y z, verlet m acc t x h y -> verlet m acc t x h z -> y = z.
Proof.
  intros m acc t x h y z (LY & HY) (LZ & HZ). assert (Q : forall i, (i < m)%nat -> nth i y 0 = nth i z 0). { intros i Hi. destruct (HY i Hi) as (-> & _), (HZ i Hi) as (-> & _). reflexivity. }
  assert (FQ : firstn m y = firstn m z) by (apply firstn_eq; auto; lia). apply (vec_eq (m + m)); auto. intros i Hi. destruct (Nat.lt_ge_cases i m) as [H|H]; [apply Q; exact H|].
  replace i with (m + (i - m))%nat by lia. destruct (HY (i - m)%nat ltac:(lia)) as (_ & ->), (HZ (i - m)%nat ltac:(lia)) as (_ & ->). rewrite FQ. reflexivity.
Qed.
(** the two calculators agree on every such system, whatever the output vectors held before *)
Theorem C78_same : forall m acc f t h x o1 e1 o2 e2, mechanical m acc f -> length x = (m + m)%nat -> length o1 = (m + m)%nat -> length e1 = (m + m)%nat -> length o2 = (m + m)%nat -> length e2 = (m + m)%nat ->
  VelocityVerletStep Rarith f (m + m)%nat t x (f t x) h o1 e1 = LeapfrogStep Rarith f (m + m)%nat t x (f t x) h o2 e2.
Proof.
  intros. destruct (C78_verlet m acc f H t h x o1 e1 H0 H1 H2) as (y & -> & HY). destruct (C78_leapfrog m acc f H t h x o2 e2 H0 H3 H4) as (z & -> & HZ). rewrite (verlet_fun m acc t x h y z HY HZ). reflexivity.
Qed.
(** ** Time reversal: a step of -h from the new state at the new time gives the old state back *)
Theorem C78_reversible : forall m acc t h x y, length x = (m + m)%nat -> verlet m acc t x h y -> verlet m acc (t + h) y (- h) x.
Proof.
  intros m acc t h x y HX (LY & HY). split; [exact HX|]. intros i Hi. destruct (HY i Hi) as (Q & V). replace (t + h + - h) with t by ring. rewrite V. split; [rewrite Q; field|field].
Qed.
(** ** Oscillators: a modified energy is kept exactly, so the energy stays within fixed bounds for ever *)
Definition modified (m : nat) (w : nat -> R) (h : R) (x : vec) (i : nat) : R := nth (m + i) x 0 * nth (m + i) x 0 + w i * w i * (1 - h * h * (w i * w i) / 4) * (nth i x 0 * nth i x 0).
Lemma verlet_modified : forall m w t h x y i, (i < m)%nat -> verlet m (oscillators w) t x h y -> modified m w h y i = modified m w h x i.
Proof.
  intros m w t h x y i Hi (LY & HY). destruct (HY i Hi) as (Q & V). unfold oscillators in *. rewrite (firstn_nth' m x i Hi) in Q, V. rewrite (firstn_nth' m y i Hi) in V. unfold modified. rewrite V, Q. field.
Qed.
Lemma chain_modified : forall m w x0 t1 h N xs i, (i < m)%nat -> chain (fun t x y => verlet m (oscillators w) t x h y) x0 t1 h N xs -> forall k, (k <= N)%nat -> modified m w h (xs k) i = modified m w h x0 i.
Proof.
  intros m w x0 t1 h N xs i Hi (H0 & HS). induction k as [|k IH]; intros HK; [rewrite H0; reflexivity|]. rewrite (verlet_modified m w _ h (xs k) (xs (S k)) i Hi (HS k ltac:(lia))). apply IH. lia.
Qed.
Theorem C78_energy : forall step m w f x0 t1 t2 N, step = VelocityVerletStep Rarith \/ step = LeapfrogStep Rarith -> (0 < m)%nat -> dims_fit (m + m) (N + 1) -> length x0 = (m + m)%nat -> mechanical m (oscillators w) f ->
  let h := (t2 - t1) / INR N in
  exists S, integrate Rarith step f (m + m) x0 t1 t2 (Z.of_nat N) = Ok S /\ forall k i, (k <= N)%nat -> (i < m)%nat -> exists q v, getXValue S (Z.of_nat k) (Z.of_nat i) = Ok q /\ getXValue S (Z.of_nat k) (Z.of_nat (m + i)) = Ok v /\
    v * v + w i * w i * (1 - h * h * (w i * w i) / 4) * (q * q) = modified m w h x0 i /\
    (h * h * (w i * w i) < 4 -> (1 - h * h * (w i * w i) / 4) * energy m w x0 i <= v * v + w i * w i * (q * q) <= energy m w x0 i / (1 - h * h * (w i * w i) / 4)).
Proof.
  intros step m w f x0 t1 t2 N HS Hm HD HX HF h.
  assert (HI : implements step (m + m) f h (fun t x y => verlet m (oscillators w) t x h y)).
  { intros t x out err LX LO LE. destruct HS as [-> | ->]; [destruct (C78_verlet m _ f HF t h x out err LX LO LE) as (y & E & V)|destruct (C78_leapfrog m _ f HF t h x out err LX LO LE) as (y & E & V)]; exists y, (repeat 0 (m + m)); (split; [exact E|split; [apply V|split; [apply repeat_length|exact V]]]). }
  destruct (C75_integrate step (m + m) f _ x0 t1 t2 N ltac:(lia) HD HX HI) as (Sl & E & xs & HC & HL & HSh & _). exists Sl. split; [exact E|]. intros k i HK Hi. fold h in HC, HSh.
  destruct HSh as (_ & SG & _). destruct (SG (Z.of_nat k)) as (t & x & EN & ET & EX); [unfold points; rewrite map_length, seq_length; lia|].
  unfold points in EN. rewrite Nat2Z.id, nth_error_map, (nth_error_nth' _ 0%nat) in EN by (rewrite seq_length; lia). rewrite seq_nth in EN by lia. cbn [option_map Nat.add] in EN. injection EN as <- <-.
  destruct (EX (Z.of_nat i)) as (q & EQ & GQ); [rewrite HL by exact HK; lia|]. destruct (EX (Z.of_nat (m + i))) as (v & EV & GV); [rewrite HL by exact HK; lia|]. exists q, v. split; [exact GQ|]. split; [exact GV|].
  rewrite Nat2Z.id in EQ, EV. pose proof (chain_modified m w x0 t1 h N xs i Hi HC k HK) as HM. unfold modified at 1 in HM. rewrite (nth_error_nth _ _ 0 EQ), (nth_error_nth _ _ 0 EV) in HM. split; [exact HM|].
  intros HH. unfold modified in HM. unfold energy. set (q0 := nth i x0 0) in *. set (v0 := nth (m + i) x0 0) in *. set (s := w i * w i) in *. assert (Hs : 0 <= s) by (unfold s; nra). assert (Hd : 0 < 1 - h * h * s / 4) by lra. assert (Hd1 : 1 - h * h * s / 4 <= 1) by (assert (0 <= h * h * s) by (apply Rmult_le_pos; nra); lra).
  set (d := 1 - h * h * s / 4) in *. clearbody d s. assert (A1 : 0 <= s * (q * q)) by (apply Rmult_le_pos; nra). assert (A2 : 0 <= s * (q0 * q0)) by (apply Rmult_le_pos; nra). split; [nra|]. apply Rmult_le_reg_l with d; [exact Hd|]. replace (d * ((v0 * v0 + s * (q0 * q0)) / d)) with (v0 * v0 + s * (q0 * q0)) by (field; lra). nra.
Qed.
(** ** One degree of freedom: the step preserves area (its Jacobian determinant is 1) *)
Theorem C78_area : forall (a a' : R -> R -> R) t h, (forall t q, derivable_pt_lim (a t) q (a' t q)) ->
  let Q q v := q + h * v + h * h / 2 * a t q in
  let V q v := v + h / 2 * (a t q + a (t + h) (Q q v)) in
  (forall q v, verlet 1 (fun t x _ => a t (nth 0 x 0)) t [q; v] h [Q q v; V q v]) /\
  forall q v, exists Qq Qv Vq Vv, derivable_pt_lim (fun s => Q s v) q Qq /\ derivable_pt_lim (fun s => Q q s) v Qv /\ derivable_pt_lim (fun s => V s v) q Vq /\ derivable_pt_lim (fun s => V q s) v Vv /\
    Qq * Vv - Qv * Vq = 1.
Proof.
  intros a a' t h HA Q V. split.
  - intros q v. split; [reflexivity|]. intros i Hi. assert (i = 0)%nat as -> by lia. cbn. split; reflexivity.
  - intros q v.
    assert (D1 : derivable_pt_lim (fun s => Q s v) q (1 + 0 + h * h / 2 * a' t q)). { unfold Q. apply (derivable_pt_lim_plus (fun s => s + h * v) (fun s => h * h / 2 * a t s)). apply (derivable_pt_lim_plus (fun s => s) (fun _ => h * v)); [apply derivable_pt_lim_id|apply derivable_pt_lim_const]. apply (derivable_pt_lim_scal (a t)). apply HA. }
    assert (D2 : derivable_pt_lim (fun s => Q q s) v (0 + h * 1 + 0)). { unfold Q. apply (derivable_pt_lim_plus (fun s => q + h * s) (fun _ => h * h / 2 * a t q)); [|apply derivable_pt_lim_const]. apply (derivable_pt_lim_plus (fun _ => q) (fun s => h * s)); [apply derivable_pt_lim_const|]. apply (derivable_pt_lim_scal (fun s => s)). apply derivable_pt_lim_id. }
    exists (1 + 0 + h * h / 2 * a' t q), (0 + h * 1 + 0), (0 + h / 2 * (a' t q + a' (t + h) (Q q v) * (1 + 0 + h * h / 2 * a' t q))), (1 + h / 2 * (0 + a' (t + h) (Q q v) * (0 + h * 1 + 0))). split; [exact D1|]. split; [exact D2|]. split; [|split].
    + unfold V. apply (derivable_pt_lim_plus (fun _ => v) (fun s => h / 2 * (a t s + a (t + h) (Q s v)))); [apply derivable_pt_lim_const|]. apply (derivable_pt_lim_scal (fun s => a t s + a (t + h) (Q s v))). apply (derivable_pt_lim_plus (a t) (fun s => a (t + h) (Q s v))); [apply HA|]. apply (derivable_pt_lim_comp (fun s => Q s v) (a (t + h))); [exact D1|apply HA].
    + unfold V. apply (derivable_pt_lim_plus (fun s => s) (fun s => h / 2 * (a t q + a (t + h) (Q q s)))); [apply derivable_pt_lim_id|]. apply (derivable_pt_lim_scal (fun s => a t q + a (t + h) (Q q s))). apply (derivable_pt_lim_plus (fun _ => a t q) (fun s => a (t + h) (Q q s))); [apply derivable_pt_lim_const|]. apply (derivable_pt_lim_comp (fun s => Q q s) (a (t + h))); [exact D2|apply HA].
    + field.
Qed.
(** ** Euler-Cromer as coded is Heun's method: the energy of an oscillator grows at every step by the factor 1 + (h w)^4 / 4 *)
Theorem C78_euler_cromer_energy : forall m w f t h x out err, mechanical m (oscillators w) f -> length x = (m + m)%nat -> length out = (m + m)%nat -> length err = (m + m)%nat ->
  exists y e, EulerCromerStep Rarith f (m + m)%nat t x (f t x) h out err = Ok (y, e) /\ forall i, (i < m)%nat -> energy m w y i = (1 + (h * w i) ^ 4 / 4) * energy m w x i.
Proof.
  intros m w f t h x out err HF HX HO HE. assert (SF : system (m + m) f) by (intros s z HZ; apply (HF s z HZ)).
  destruct (C76_heun (m + m) f t x h out err SF HX HO HE) as (y & e & E & ks & [KL KS] & -> & _). exists (move x h (tab_b heun_tab) ks), e. split; [exact E|]. clear E. intros i Hi. unfold energy. rewrite !move_nth by lia.
  cbn [heun_tab tab_c length] in KL. destruct ks as [|k1 [|k2 [|]]]; cbn in KL; try lia. cbn [length heun_tab tab_c tab_a tab_b] in *. pose proof (KS 0%nat ltac:(lia)) as E1. pose proof (KS 1%nat ltac:(lia)) as E2. cbn [nth] in E1, E2. rewrite move_nil in E1.
  set (x2 := move x h [1] [k1; k2]) in *. assert (LX2 : length x2 = (m + m)%nat) by (unfold x2; rewrite move_length; exact HX).
  destruct (HF (t + 0 * h) x HX) as (_ & V1). destruct (HF (t + 1 * h) x2 LX2) as (_ & V2). destruct (V1 i Hi) as (A1 & B1). destruct (V2 i Hi) as (A2 & B2). rewrite <- E1 in A1, B1. rewrite <- E2 in A2, B2. unfold oscillators in B1, B2. rewrite firstn_nth' in B1, B2 by exact Hi.
  assert (N2 : forall j, (j < m + m)%nat -> nth j x2 0 = nth j x 0 + h * nth j k1 0) by (intros j HJ; unfold x2; rewrite move_nth by lia; cbn [comb]; ring). rewrite N2 in A2, B2 by lia.
  cbn [comb]. rewrite A2, B2, A1, B1. field.
Qed.
