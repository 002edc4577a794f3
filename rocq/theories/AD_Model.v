(** * Model of forward-mode automatic differentiation (mml/core/Derivation/ForwardAD.h)

    Exact arithmetic; [mfuns] holds the functions of <cmath>; infinities and NaN are not modelled (a division by zero and a function outside
    its domain give an unspecified number, and no theorem uses it).  The conversion of an arithmetic type to T is the identity. *)

From Coq Require Import List Bool Arith ZArith.
From Verif Require Import Base Num Mat_Model RootFind_Model.
Import ListNotations.

(** <cmath> *)
Record mfuns (T : Type) := mkMF { m_sqrt : T -> T; m_pow : T -> T -> T; m_exp : T -> T; m_log : T -> T; m_log10 : T -> T; m_sin : T -> T; m_cos : T -> T; m_tan : T -> T;
  m_asin : T -> T; m_acos : T -> T; m_atan : T -> T; m_sinh : T -> T; m_cosh : T -> T; m_tanh : T -> T; m_floor : T -> T; m_ceil : T -> T; m_atan2 : T -> T -> T; m_min : T }.
Arguments m_sqrt {T} _ _. Arguments m_pow {T} _ _ _. Arguments m_exp {T} _ _. Arguments m_log {T} _ _. Arguments m_log10 {T} _ _. Arguments m_sin {T} _ _. Arguments m_cos {T} _ _.
Arguments m_tan {T} _ _. Arguments m_asin {T} _ _. Arguments m_acos {T} _ _. Arguments m_atan {T} _ _. Arguments m_sinh {T} _ _. Arguments m_cosh {T} _ _. Arguments m_tanh {T} _ _.
Arguments m_floor {T} _ _. Arguments m_ceil {T} _ _. Arguments m_atan2 {T} _ _ _. Arguments m_min {T} _.

Section AD.
Context {T : Type} (A : arith T) (M : mfuns T).
Local Notation "a + b" := (nadd (aops A) a b).
Local Notation "a - b" := (nsub (aops A) a b).
Local Notation "a * b" := (nmul (aops A) a b).
Local Notation "a / b" := (ndiv (aops A) a b).
Local Notation "- a" := (nopp (aops A) a).
Local Notation "a <? b" := (altb A a b).
Local Notation lit := (alit A).

(** ForwardAD.h:43-48: value, derivative *)
Record dual := mkDual { dval : T; dder : T }.
(** ForwardAD.h:51 Dual(T val), :58-59 Dual(U val) *)
Definition dconst (v : T) : dual := mkDual v (lit 0).

(** ForwardAD.h:65-88 compound assignments: the new value of *this *)
Definition dadd_assign (s o : dual) : dual := mkDual (dval s + dval o) (dder s + dder o).
Definition dsub_assign (s o : dual) : dual := mkDual (dval s - dval o) (dder s - dder o).
Definition dmul_assign (s o : dual) : dual := let d := dder s * dval o + dval s * dder o in mkDual (dval s * dval o) d.
Definition ddiv_assign (s o : dual) : dual := let d := (dder s * dval o - dval s * dder o) / (dval o * dval o) in mkDual (dval s / dval o) d.

(** ForwardAD.h:95-127 *)
Definition dadd (a b : dual) : dual := mkDual (dval a + dval b) (dder a + dder b).
Definition dsub (a b : dual) : dual := mkDual (dval a - dval b) (dder a - dder b).
Definition dmul (a b : dual) : dual := mkDual (dval a * dval b) (dder a * dval b + dval a * dder b).
Definition ddiv (a b : dual) : dual := let inv := lit 1 / dval b in mkDual (dval a * inv) ((dder a * dval b - dval a * dder b) * inv * inv).
Definition dneg (a : dual) : dual := mkDual (- dval a) (- dder a).
(** ForwardAD.h:130-152: a scalar operand is converted to a constant *)
Definition dadd_s (a : dual) (b : T) : dual := dadd a (dconst b).
Definition s_dadd (a : T) (b : dual) : dual := dadd (dconst a) b.
Definition dsub_s (a : dual) (b : T) : dual := dsub a (dconst b).
Definition s_dsub (a : T) (b : dual) : dual := dsub (dconst a) b.
Definition dmul_s (a : dual) (b : T) : dual := dmul a (dconst b).
Definition s_dmul (a : T) (b : dual) : dual := dmul (dconst a) b.
Definition ddiv_s (a : dual) (b : T) : dual := ddiv a (dconst b).
Definition s_ddiv (a : T) (b : dual) : dual := ddiv (dconst a) b.

(** ForwardAD.h:158-174: comparisons of the values *)
Definition deqb (a b : dual) : bool := aeqb A (dval a) (dval b).
Definition dneb (a b : dual) : bool := negb (aeqb A (dval a) (dval b)).
Definition dltb (a b : dual) : bool := dval a <? dval b.
Definition dleb (a b : dual) : bool := negb (dval b <? dval a).
Definition dgtb (a b : dual) : bool := dval b <? dval a.
Definition dgeb (a b : dual) : bool := negb (dval a <? dval b).

(** ForwardAD.h:181-185 *)
Definition dsqrt (x : dual) : dual := let sq := m_sqrt M (dval x) in mkDual sq (dder x / (lit 2 * sq)).
(** ForwardAD.h:188-204 pow(Dual, Dual) *)
Definition dpow (b e : dual) : dual :=
  if aeqb A (dder e) (lit 0) then
    let p := m_pow M (dval b) (dval e) in mkDual p (dval e * m_pow M (dval b) (dval e - lit 1) * dder b)
  else if aeqb A (dder b) (lit 0) then
    let p := m_pow M (dval b) (dval e) in mkDual p (p * m_log M (dval b) * dder e)
  else
    let p := m_pow M (dval b) (dval e) in mkDual p (p * (dder e * m_log M (dval b) + dval e * dder b / dval b)).
(** ForwardAD.h:206-210 pow(Dual, S) *)
Definition dpow_s (b : dual) (e : T) : dual := let p := m_pow M (dval b) e in mkDual p (e * m_pow M (dval b) (e - lit 1) * dder b).
(** ForwardAD.h:212-217 pow(S, Dual) *)
Definition s_dpow (b : T) (e : dual) : dual := let p := m_pow M b (dval e) in mkDual p (p * m_log M b * dder e).
(** ForwardAD.h:220-237 *)
Definition dexp (x : dual) : dual := let ex := m_exp M (dval x) in mkDual ex (ex * dder x).
Definition dlog (x : dual) : dual := mkDual (m_log M (dval x)) (dder x / dval x).
Definition dlog10 (x : dual) : dual := let ln10 := m_log M (lit 10) in mkDual (m_log10 M (dval x)) (dder x / (dval x * ln10)).
(** ForwardAD.h:240-256 *)
Definition dsin (x : dual) : dual := mkDual (m_sin M (dval x)) (m_cos M (dval x) * dder x).
Definition dcos (x : dual) : dual := mkDual (m_cos M (dval x)) (- m_sin M (dval x) * dder x).
Definition dtan (x : dual) : dual := let c := m_cos M (dval x) in mkDual (m_tan M (dval x)) (dder x / (c * c)).
(** std::max(a, b) *)
Definition amax' (a b : T) : T := if a <? b then b else a.
(** ForwardAD.h:259-277; m_min is numeric_limits<T>::min() *)
Definition dasin (x : dual) : dual := let denom := m_sqrt M (amax' (lit 1 - dval x * dval x) (m_min M)) in mkDual (m_asin M (dval x)) (dder x / denom).
Definition dacos (x : dual) : dual := let denom := m_sqrt M (amax' (lit 1 - dval x * dval x) (m_min M)) in mkDual (m_acos M (dval x)) (- dder x / denom).
Definition datan (x : dual) : dual := mkDual (m_atan M (dval x)) (dder x / (lit 1 + dval x * dval x)).
(** ForwardAD.h:280-296 *)
Definition dsinh (x : dual) : dual := mkDual (m_sinh M (dval x)) (m_cosh M (dval x) * dder x).
Definition dcosh (x : dual) : dual := mkDual (m_cosh M (dval x)) (m_sinh M (dval x) * dder x).
Definition dtanh (x : dual) : dual := let th := m_tanh M (dval x) in mkDual th ((lit 1 - th * th) * dder x).
(** ForwardAD.h:299-307 *)
Definition dabs (x : dual) : dual := if negb (dval x <? lit 0) then x else mkDual (- dval x) (- dder x).
(** ForwardAD.h:310-319 *)
Definition dfloor (x : dual) : dual := mkDual (m_floor M (dval x)) (lit 0).
Definition dceil (x : dual) : dual := mkDual (m_ceil M (dval x)) (lit 0).
(** ForwardAD.h:322-330 *)
Definition datan2 (y x : dual) : dual :=
  let denom := dval x * dval x + dval y * dval y in mkDual (m_atan2 M (dval y) (dval x)) ((dval x * dder y - dval y * dder x) / denom).
(** ForwardAD.h:333-336 *)
Definition dfma (a b c : dual) : dual := dadd (dmul a b) c.

(** ForwardAD.h:357-362 derivative *)
Definition derivative (f : dual -> dual) (x : T) : T * T := let r := f (mkDual x (lit 1)) in (dval r, dder r).
(** ForwardAD.h:366-386 gradient: [xd] keeps its contents from one variable to the next *)
Definition gradient (f : list dual -> res dual) (x : list T) : res (list T) :=
  let n := length x in
  '(grad, _) <- for_range 0 n (fun '(grad, xd) i =>
      xd <- for_range 0 n (fun xd j => v <- vget x j ;; vset xd j (mkDual v (lit 0))) xd ;;
      xi <- vget xd i ;;
      xd <- vset xd i (mkDual (dval xi) (lit 1)) ;;
      r <- f xd ;;
      grad <- vset grad i (dder r) ;;
      Ok (grad, xd)) (repeat (lit 0) n, repeat (dconst (lit 0)) n) ;;
  Ok grad.
End AD.
Arguments dval {T} _. Arguments dder {T} _.
