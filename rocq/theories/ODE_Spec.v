(** * Specification of one-step methods for ordinary differential equations

    Vectors are lists of reals.  A system is a dimension [n] and a function [f]: the derivative at time t and state x. *)
From Coq Require Import List Reals ZArith Arith.
Import ListNotations.
Open Scope R_scope.
Set Implicit Arguments.

Notation vec := (list R).
Definition sys := R -> vec -> vec.
(** the derivative of a state of dimension [n] has dimension [n] *)
Definition system (n : nat) (f : sys) : Prop := forall t x, length x = n -> length (f t x) = n.

(** ** Runge-Kutta methods *)
(** w_1 k_1[i] + w_2 k_2[i] + ... (as many terms as there are weights) *)
Fixpoint comb (ws : list R) (ks : list vec) (i : nat) : R :=
  match ws, ks with w :: ws, k :: ks => w * nth i k 0 + comb ws ks i | _, _ => 0 end.
(** x + h (w_1 k_1 + w_2 k_2 + ...) *)
Definition move (x : vec) (h : R) (ws : list R) (ks : list vec) : vec := map (fun i => nth i x 0 + h * comb ws ks i) (seq 0 (length x)).
(** nodes c, coefficients a (one row for each stage), weights b *)
Record tableau := Tab { tab_c : list R; tab_a : list (list R); tab_b : list R }.
(** k_i = f(t + c_i h, x + h (a_i1 k_1 + a_i2 k_2 + ...)) *)
Definition rk_stages (tab : tableau) (f : sys) (t : R) (x : vec) (h : R) (ks : list vec) : Prop :=
  length ks = length (tab_c tab) /\
  forall i, (i < length ks)%nat -> nth i ks [] = f (t + nth i (tab_c tab) 0 * h) (move x h (nth i (tab_a tab) []) ks).
(** one step: y = x + h (b_1 k_1 + b_2 k_2 + ...) *)
Definition rk_step (tab : tableau) (f : sys) (t : R) (x : vec) (h : R) (y : vec) : Prop :=
  exists ks, rk_stages tab f t x h ks /\ y = move x h (tab_b tab) ks.
(** the same stages with two sets of weights: the result and the difference of the two results *)
Definition rk_pair (tab : tableau) (bstar : list R) (f : sys) (t : R) (x : vec) (h : R) (y e : vec) : Prop :=
  exists ks, rk_stages tab f t x h ks /\ y = move x h (tab_b tab) ks /\
    e = map (fun i => nth i (move x h (tab_b tab) ks) 0 - nth i (move x h bstar ks) 0) (seq 0 (length x)).
(** explicit: stage i uses the stages before it only; there is one row and one weight for each node *)
Definition explicit (tab : tableau) : Prop :=
  length (tab_a tab) = length (tab_c tab) /\ length (tab_b tab) = length (tab_c tab) /\ forall i, (i < length (tab_c tab))%nat -> (length (nth i (tab_a tab) []) <= i)%nat.
(** c_i = a_i1 + a_i2 + ... *)
Definition sum_list (l : list R) : R := fold_right Rplus 0 l.
Definition row_sums (tab : tableau) : Prop := forall i, (i < length (tab_c tab))%nat -> nth i (tab_c tab) 0 = sum_list (nth i (tab_a tab) []).

(** ** Order conditions (Butcher): rooted trees, their order and density, elementary weights *)
Inductive tree := Node : list tree -> tree.
Fixpoint order (t : tree) : nat := match t with Node ts => S (fold_right (fun t n => order t + n)%nat 0%nat ts) end.
Fixpoint density (t : tree) : Z := match t with Node ts => (Z.of_nat (order t) * fold_right (fun t n => density t * n) 1 ts)%Z end.
(** sum of products; stops at the shorter list *)
Fixpoint dot (u v : list R) : R := match u, v with a :: u, b :: v => a * b + dot u v | _, _ => 0 end.
(** the weight of a tree at each stage: for a root with subtrees t_1, ..., the product over the subtrees of sum_j a_ij weight_j(t) *)
Fixpoint stage_weight (a : list (list R)) (t : tree) (i : nat) : R :=
  match t with Node ts => fold_right (fun t r => dot (nth i a []) (map (stage_weight a t) (seq 0 (length a))) * r) 1 ts end.
Definition elementary_weight (tab : tableau) (t : tree) : R := dot (tab_b tab) (map (stage_weight (tab_a tab) t) (seq 0 (length (tab_a tab)))).
(** a method is of order p when the weight of every tree of order at most p is the inverse of its density *)
Definition has_order (tab : tableau) (p : nat) : Prop := forall t, (order t <= p)%nat -> elementary_weight tab t = / IZR (density t).
Definition has_order_within (eps : R) (tab : tableau) (p : nat) : Prop := forall t, (order t <= p)%nat -> Rabs (elementary_weight tab t - / IZR (density t)) <= eps.

(** ** Solutions *)
(** a differentiable function [y] from [t1] to [t2] that satisfies the system *)
Definition solves (n : nat) (f : sys) (t1 t2 : R) (y : R -> vec) : Prop :=
  forall t, t1 <= t <= t2 -> length (y t) = n /\ forall i, (i < n)%nat -> derivable_pt_lim (fun s => nth i (y s) 0) t (nth i (f t (y t)) 0).
(** every component differs by at most [e] *)
Definition close (n : nat) (e : R) (x y : vec) : Prop := forall i, (i < n)%nat -> Rabs (nth i x 0 - nth i y 0) <= e.
