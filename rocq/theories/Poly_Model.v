(** * Model of Polynom (mml/base/Polynom.h)

    A polynomial is its coefficient vector [_vecCoef], constant term first.  Coefficients and evaluation
    points have the same type (CoefT = FieldT).  [CoefT(k)] for an int k is [nnat k]; [eqb] is operator==
    on coefficients.  Not modelled: printing, iterators, IsEqualTo's floating point tolerance beyond the
    abstract test [far]. *)

From Coq Require Import List Arith Bool ZArith.
From Verif Require Import Base Num.
Import ListNotations.

Section Poly.
Context {T : Type} (O : numops T) (eqb : T -> T -> bool).

(** the conversion of a non-negative int *)
Fixpoint nnat (k : nat) : T := match k with 0 => n0 O | S k => nadd O (nnat k) (n1 O) end.

(** Polynom.h:48 Polynom(int n), 153 SetDegree on an empty polynomial: vector::resize(n + 1) *)
Definition p_of_degree (n : Z) : res (list T) :=
  if (n + 1 <? 0)%Z then Throw LengthError else Ok (repeat (n0 O) (Z.to_nat (n + 1))).
(** Polynom.h:70-90, 140-145: Zero, Monomial, Constant, Linear *)
Definition p_zero : list T := [n0 O].
Definition p_monomial (d : Z) : res (list T) :=
  c <- p_of_degree d ;; if (0 <=? d)%Z then vset c (Z.to_nat d) (n1 O) else Ok c.
Definition p_constant (c : T) : list T := [c].
Definition p_linear (a b : T) : list T := [b; a].

(** Polynom.h:149 degree() *)
Definition p_degree (p : list T) : Z := (Z.of_nat (length p) - 1)%Z.
(** Polynom.h:155 SetDegree: vector::resize *)
Definition p_set_degree (p : list T) (d : Z) : res (list T) :=
  if (d + 1 <? 0)%Z then Throw LengthError
  else let n := Z.to_nat (d + 1) in Ok (firstn n p ++ repeat (n0 O) (n - length p)).
(** Polynom.h:157-161 Reduce(): pop_back while the last coefficient is zero *)
Fixpoint drop_zeros (test : T -> bool) (r : list T) : list T :=
  match r with [] => [] | c :: r' => if test c then drop_zeros test r' else r end.
Definition p_reduce (test : T -> bool) (p : list T) : list T := rev (drop_zeros test (rev p)).
(** Polynom.h:164-167 leadingTerm, constantTerm; 199 coeff *)
Definition p_leading (p : list T) : T := last p (n0 O).
Definition p_const_term (p : list T) : T := hd (n0 O) p.
Definition p_coeff (p : list T) (i : Z) : T := if (0 <=? i)%Z then nth (Z.to_nat i) p (n0 O) else n0 O.

(** Polynom.h:211-221 operator(): Horner *)
Definition p_eval (p : list T) (x : T) : res T :=
  if Nat.eqb (length p) 0 then Ok (n0 O)
  else
    c <- vget p (length p - 1) ;;
    for_down 0 (length p - 1) (fun s j => c <- vget p j ;; Ok (nadd O (nmul O s x) c)) (nmul O c (n1 O)).

(** Polynom.h:226-241 IsEqual, 249-263 IsEqualTo: the first pair of coefficients with [far a b] ends the loop *)
Definition p_is_equal (far : T -> T -> bool) (p q : list T) : bool :=
  forallb (fun i => negb (far (nth i p (n0 O)) (nth i q (n0 O)))) (seq 0 (Nat.max (length p) (length q))).

(** Polynom.h:278-285 unary minus *)
Definition p_neg (p : list T) : res (list T) :=
  for_range 0 (length p) (fun r i => c <- vget p i ;; vset r i (nopp O c)) (repeat (n0 O) (length p)).
(** Polynom.h:289-303 operator+ ; 307-321 operator-: [op] is += or -= on the second operand *)
Definition p_addsub (op : T -> T -> T) (p q : list T) : res (list T) :=
  let n := Nat.max (length p) (length q) in
  for_range 0 n (fun r i =>
    r <- (if i <? length p then x <- vget r i ;; c <- vget p i ;; vset r i (nadd O x c) else Ok r) ;;
    (if i <? length q then x <- vget r i ;; c <- vget q i ;; vset r i (op x c) else Ok r)) (repeat (n0 O) n).
Definition p_add := p_addsub (nadd O).
Definition p_sub := p_addsub (nsub O).
(** Polynom.h:325-335 operator*; with two empty operands the size is (int)(0 + 0 - 1) = -1 *)
Definition p_mul (p q : list T) : res (list T) :=
  if Nat.eqb (length p + length q) 0 then Throw LengthError
  else
    for_range 0 (length p) (fun r i => for_range 0 (length q) (fun r j =>
      x <- vget r (i + j) ;; a <- vget p i ;; b <- vget q j ;; vset r (i + j) (nadd O x (nmul O a b))) r)
      (repeat (n0 O) (length p + length q - 1)).
(** Polynom.h:339-380: scalar operations *)
Definition p_nonempty (p : list T) : list T := match p with [] => [n0 O] | _ => p end.
Definition p_add_scalar (p : list T) (s : T) : res (list T) :=
  let r := p_nonempty p in x <- vget r 0 ;; vset r 0 (nadd O x s).
Definition p_sub_scalar (p : list T) (s : T) : res (list T) :=
  let r := p_nonempty p in x <- vget r 0 ;; vset r 0 (nsub O x s).
Definition p_scalar_sub (s : T) (p : list T) : res (list T) :=
  r <- p_neg p ;; let r := p_nonempty r in x <- vget r 0 ;; vset r 0 (nadd O x s).
Definition p_scale (p : list T) (s : T) : list T := map (fun c => nmul O c s) p.
Definition p_divide (p : list T) (s : T) : list T := map (fun c => ndiv O c s) p.

(** Polynom.h:395-401, 413-415: while (nv >= 0 && v[nv] == 0) nv--; the result here is nv + 1 *)
Fixpoint real_size (v : list T) (k : nat) : res nat :=
  match k with
  | 0 => Ok 0
  | S k' => c <- vget v k' ;; if eqb c (n0 O) then real_size v k' else Ok k
  end.
(** Polynom.h:391-427 poldiv(u, v, qout, rout): the new qout and rout.  All entries of both are
    overwritten, so their old contents do not matter; qout and rout are different objects. *)
Definition poldiv (u v : list T) : res (list T * list T) :=
  nv1 <- real_size v (length v) ;;
  if Nat.eqb nv1 0 then Throw DivideByZero
  else
    let nv := nv1 - 1 in
    let n1' := length u in                         (* n + 1 *)
    '(q, r) <- for_down 0 (n1' - nv) (fun '(q, r) k =>
      a <- vget r (nv + k) ;; b <- vget v nv ;;
      let t := ndiv O a b in
      q <- vset q k t ;;
      r <- for_down k (nv + k) (fun r j => x <- vget r j ;; y <- vget v (j - k) ;; vset r j (nsub O x (nmul O t y))) r ;;
      Ok (q, r)) (repeat (n0 O) n1', u) ;;
    r <- for_range nv n1' (fun r j => vset r j (n0 O)) r ;;
    nq1 <- real_size q (length q) ;;
    qout <- for_range 0 nq1 (fun o j => c <- vget q j ;; vset o j c) (repeat (n0 O) nq1) ;;
    rout <- for_range 0 nv (fun o j => c <- vget r j ;; vset o j c) (repeat (n0 O) nv) ;;
    Ok (qout, rout).

(** Polynom.h:433-457 Derive(x, pd): the new pd; nc = degree, nd = pd.size() - 1 *)
Definition p_derive (p : list T) (x : T) (pd : list T) : res (list T) :=
  if Nat.eqb (length p) 0 then UB                  (* reads coefficient -1 *)
  else
    let nc := length p - 1 in let nd := length pd - 1 in
    c <- vget p nc ;;
    pd <- vset pd 0 c ;;
    pd <- for_range 1 (nd + 1) (fun pd j => vset pd j (n0 O)) pd ;;
    pd <- for_down 0 nc (fun pd i =>
      let nnd := Nat.min nd (nc - i) in
      pd <- for_down 1 (nnd + 1) (fun pd j => a <- vget pd j ;; b <- vget pd (j - 1) ;; vset pd j (nadd O (nmul O a x) b)) pd ;;
      a <- vget pd 0 ;; c <- vget p i ;; vset pd 0 (nadd O (nmul O a x) c)) pd ;;
    '(pd, _) <- for_range 2 (nd + 1) (fun '(pd, cnst) i =>
      let cnst := nmul O cnst (nnat i) in
      a <- vget pd i ;; pd <- vset pd i (nmul O a cnst) ;; Ok (pd, cnst)) (pd, n1 O) ;;
    Ok pd.

(** Polynom.h:460-471 derivative() *)
Definition p_derivative (p : list T) : res (list T) :=
  if length p <=? 1 then Ok []
  else for_range 1 (length p) (fun r i => c <- vget p i ;; vset r (i - 1) (nmul O c (nnat i))) (repeat (n0 O) (length p - 1)).
(** Polynom.h:474-482 integral() *)
Definition p_integral (p : list T) : res (list T) :=
  for_range 0 (length p) (fun r i => c <- vget p i ;; vset r (i + 1) (ndiv O c (nnat (i + 1)))) (repeat (n0 O) (length p + 1)).

(** Polynom.h:107-121, inside FromValues: the coefficients of (x - x_0) ... (x - x_{n-1}) below the leading one *)
Definition p_master (x : list T) : res (list T) :=
  let n := length x in
  x0 <- vget x 0 ;;
  s <- vset (repeat (n0 O) n) (n - 1) (nopp O x0) ;;
  for_range 1 n (fun s i =>
    xi <- vget x i ;;
    s <- for_range (n - 1 - i) (n - 1) (fun s j => a <- vget s j ;; b <- vget s (j + 1) ;; vset s j (nsub O a (nmul O xi b))) s ;;
    a <- vget s (n - 1) ;; vset s (n - 1) (nsub O a xi)) s.
(** Polynom.h:96-138 FromValues *)
Definition p_from_values (x y : list T) : res (list T) :=
  let n := length x in
  if negb (Nat.eqb n (length y)) then Throw InvalidArgument
  else if Nat.eqb n 0 then Throw InvalidArgument
  else
    _ <- for_range 0 n (fun _ i => for_range (i + 1) n (fun _ j =>
           a <- vget x i ;; b <- vget x j ;; if eqb a b then Throw InvalidArgument else Ok tt) tt) tt ;;
    s <- p_master x ;;
    for_range 0 n (fun cof j =>
      xj <- vget x j ;; yj <- vget y j ;;
      phi <- for_down 1 n (fun phi k => a <- vget s k ;; Ok (nadd O (nmul O (nnat k) a) (nmul O xj phi))) (nnat n) ;;
      let ff := ndiv O yj phi in
      '(cof, _) <- for_down 0 n (fun '(cof, b) k =>
        c <- vget cof k ;; cof <- vset cof k (nadd O c (nmul O b ff)) ;;
        a <- vget s k ;; Ok (cof, nadd O a (nmul O xj b))) (cof, n1 O) ;;
      Ok cof) (repeat (n0 O) n).
End Poly.
