(** * Specification of automatic differentiation: programs, their values, where they are smooth *)
From Coq Require Import List Reals ZArith.
Import ListNotations.
Open Scope R_scope.

(** the functions of <cmath> *)
Definition std_floor (x : R) : R := IZR (Int_part x).
Definition std_ceil (x : R) : R := - IZR (Int_part (- x)).
(** x^y: for positive x, and for integer y *)
Definition std_pow (x y : R) : R := if Rlt_dec 0 x then Rpower x y else if Req_EM_T y (IZR (Int_part y)) then powerRZ x (Int_part y) else 0.
(** the angle of the point (x, y) *)
Definition std_atan2 (y x : R) : R :=
  if Rlt_dec 0 x then atan (y / x) else if Rlt_dec x 0 then (if Rlt_dec y 0 then atan (y / x) - PI else atan (y / x) + PI)
  else if Rlt_dec 0 y then PI / 2 else if Rlt_dec y 0 then - PI / 2 else 0.

(** ** Programs over a list of variables *)
Inductive fun1 := Fneg | Fsqrt | Fexp | Flog | Flog10 | Fsin | Fcos | Ftan | Fasin | Facos | Fatan | Fsinh | Fcosh | Ftanh | Fabs | Ffloor | Fceil.
Inductive fun2 := Fadd | Fsub | Fmul | Fdiv | Fpow | Fatan2.
Inductive cmp := Ceq | Cne | Clt | Cle | Cgt | Cge.
Inductive prog :=
| PVar (i : nat)
| PConst (c : R)
| PF1 (g : fun1) (p : prog)
| PF2 (g : fun2) (p q : prog)
| PS2 (g : fun2) (c : R) (p : prog)      (* scalar on the left *)
| P2S (g : fun2) (p : prog) (c : R)      (* scalar on the right *)
| PFma (p q r : prog)
| PLet (p q : prog)                      (* q with the value of p as variable 0 and the other variables moved up *)
| PIf (c : cmp) (p q : prog) (yes no : prog)
| PRepeat (k : nat) (p q : prog).        (* the value of p, replaced k times by q with it as variable 0 *)

Definition push {X} (v : X) (env : nat -> X) (i : nat) : X := match i with O => v | S i => env i end.
Definition ap1 (g : fun1) (x : R) : R :=
  match g with
  | Fneg => - x | Fsqrt => sqrt x | Fexp => exp x | Flog => ln x | Flog10 => ln x / ln 10 | Fsin => sin x | Fcos => cos x | Ftan => tan x
  | Fasin => asin x | Facos => acos x | Fatan => atan x | Fsinh => sinh x | Fcosh => cosh x | Ftanh => tanh x | Fabs => Rabs x
  | Ffloor => std_floor x | Fceil => std_ceil x end.
Definition ap2 (g : fun2) (x y : R) : R :=
  match g with Fadd => x + y | Fsub => x - y | Fmul => x * y | Fdiv => x / y | Fpow => std_pow x y | Fatan2 => std_atan2 x y end.
Definition holds (c : cmp) (x y : R) : Prop :=
  match c with Ceq => x = y | Cne => x <> y | Clt => x < y | Cle => x <= y | Cgt => x > y | Cge => x >= y end.
Lemma holds_dec : forall c x y, {holds c x y} + {~ holds c x y}.
Proof. intros [] x y; unfold holds. apply Req_EM_T. destruct (Req_EM_T x y); [right|left]; auto. apply Rlt_dec. apply Rle_dec. apply Rgt_dec. apply Rge_dec. Defined.
(** the value of a program *)
Fixpoint value (p : prog) (env : nat -> R) : R :=
  match p with
  | PVar i => env i
  | PConst c => c
  | PF1 g p => ap1 g (value p env)
  | PF2 g p q => ap2 g (value p env) (value q env)
  | PS2 g c p => ap2 g c (value p env)
  | P2S g p c => ap2 g (value p env) c
  | PFma p q r => value p env * value q env + value r env
  | PLet p q => value q (push (value p env) env)
  | PIf c p q yes no => if holds_dec c (value p env) (value q env) then value yes env else value no env
  | PRepeat k p q => Nat.iter k (fun v => value q (push v env)) (value p env)
  end.

(** the smallest positive normal double *)
Definition dbl_min : R := / 2 ^ 1022.
(** ** Where the operations are differentiable *)
Definition smooth1 (g : fun1) (x : R) : Prop :=
  match g with
  | Fneg | Fexp | Fsin | Fcos | Fatan | Fsinh | Fcosh | Ftanh => True
  | Fsqrt | Flog | Flog10 => 0 < x
  | Ftan => cos x <> 0
  | Fasin | Facos => dbl_min <= 1 - x * x
  | Fabs => x <> 0
  | Ffloor | Fceil => forall z, x <> IZR z
  end.
Definition smooth2 (g : fun2) (x y : R) : Prop :=
  match g with
  | Fadd | Fsub | Fmul => True
  | Fdiv => y <> 0
  | Fpow => 0 < x
  | Fatan2 => 0 < y \/ x <> 0    (* not on the cut: the second coordinate is positive, or the first is not zero *)
  end.
(** x^c for a scalar c: x is positive, or c is an integer and x is not zero or c is at least 1 *)
Definition smooth2s (g : fun2) (x c : R) : Prop :=
  match g with Fpow => 0 < x \/ exists z, c = IZR z /\ (x <> 0 \/ (1 <= z)%Z) | _ => smooth2 g x c end.
Fixpoint smooth (p : prog) (env : nat -> R) : Prop :=
  match p with
  | PVar _ | PConst _ => True
  | PF1 g p => smooth p env /\ smooth1 g (value p env)
  | PF2 g p q => smooth p env /\ smooth q env /\ smooth2 g (value p env) (value q env)
  | PS2 g c p => smooth p env /\ smooth2 g c (value p env)
  | P2S g p c => smooth p env /\ smooth2s g (value p env) c
  | PFma p q r => smooth p env /\ smooth q env /\ smooth r env
  | PLet p q => smooth p env /\ smooth q (push (value p env) env)
  | PIf c p q yes no => smooth p env /\ smooth q env /\ value p env <> value q env /\ if holds_dec c (value p env) (value q env) then smooth yes env else smooth no env
  | PRepeat k p q => smooth p env /\ forall j, (j < k)%nat -> smooth q (push (Nat.iter j (fun v => value q (push v env)) (value p env)) env)
  end.
