(** * Model of the descriptive statistics (mml/algorithms/Statistics.h, mml/algorithms/Statistics/StatisticsRank.h)

    Arithmetic is exact ([arith T] of RootFind_Model.v together with floor, ceil, log and exp).  Vectors are lists and
    reading outside them is [UB]; StatisticsError is [DomainError].  Output reference parameters are returned as tuples.
    [a > b] is [b < a], [a <= b] is "not b < a", [a == b] is "neither less nor greater".
    std::sort of a vector of numbers is modelled by insertion sort, which gives the only sorted arrangement (equal
    numbers are indistinguishable). *)

From Coq Require Import List Bool Arith ZArith.
From Verif Require Import Base Num Mat_Model RootFind_Model.
Import ListNotations.

(** the numbers together with std::floor and std::ceil (as the int they are cast to), std::log and std::exp *)
Record sarith (T : Type) := mkSarith { sar : arith T; sfloor : T -> Z; sceil : T -> Z; slog : T -> T; sexp : T -> T }.
Arguments sar {T} _. Arguments sfloor {T} _ _. Arguments sceil {T} _ _. Arguments slog {T} _ _. Arguments sexp {T} _ _.

Section Stat.
Context {T : Type} (S : sarith T).
Local Notation A := (sar S).
Local Notation "a + b" := (nadd (aops A) a b).
Local Notation "a - b" := (nsub (aops A) a b).
Local Notation "a * b" := (nmul (aops A) a b).
Local Notation "a / b" := (ndiv (aops A) a b).
Local Notation "a <? b" := (altb A a b).
Local Notation lit := (alit A).
Local Notation int n := (alit A (Z.of_nat n)).
Local Notation StatisticsError := DomainError.

(** Statistics.h:26-38 Avg *)
Definition Avg (data : list T) : res T :=
  let n := length data in
  if n <=? 0 then Throw StatisticsError else
  s <- for_range 0 n (fun s j => x <- vget data j ;; Ok (s + x)) (lit 0) ;;
  Ok (s / int n).

(** Statistics.h:41-57 AvgVar: (outAvg, outVar) *)
Definition AvgVar (data : list T) : res (T * T) :=
  let n := length data in
  if n <=? 0 then Throw StatisticsError else
  avg <- Avg data ;;
  st <- for_range 0 n (fun st j => let '(ep, var) := st in
          x <- vget data j ;; let s := x - avg in Ok (ep + s, var + s * s)) (lit 0, lit 0) ;;
  let '(ep, var) := st in
  Ok (avg, (var - ep * ep / int n) / lit (Z.of_nat n - 1)).

(** Statistics.h:58-65 AvgStdDev *)
Definition AvgStdDev (data : list T) : res (T * T) :=
  if length data <=? 0 then Throw StatisticsError else
  av <- AvgVar data ;; Ok (fst av, asqrt A (snd av)).
(** Statistics.h:68 Mean, 70-74 Variance, 76-80 StdDev *)
Definition Mean (data : list T) : res T := Avg data.
Definition Variance (data : list T) : res T := av <- AvgVar data ;; Ok (snd av).
Definition StdDev (data : list T) : res T := av <- AvgStdDev data ;; Ok (snd av).

(** Statistics.h:83-112 Moments: (ave, adev, sdev, var, skew, curt).  When the exception at the end is thrown the output
    parameters have been written already; that is not modelled. *)
Definition Moments (data : list T) : res (T * T * T * T * T * T) :=
  let n := length data in
  if n <=? 1 then Throw StatisticsError else
  s <- for_range 0 n (fun s j => x <- vget data j ;; Ok (s + x)) (lit 0) ;;
  let ave := s / int n in
  st <- for_range 0 n (fun st j => let '(adev, ep, var, skew, curt) := st in
          x <- vget data j ;;
          let s := x - ave in let p2 := s * s in let p3 := p2 * s in let p4 := p3 * s in
          Ok (adev + aabs A s, ep + s, var + p2, skew + p3, curt + p4)) (lit 0, lit 0, lit 0, lit 0, lit 0) ;;
  let '(adev, ep, var, skew, curt) := st in
  let adev := adev / int n in
  let var := (var - ep * ep / int n) / lit (Z.of_nat n - 1) in
  let sdev := asqrt A var in
  if negb (aeqb A var (lit 0)) then
    Ok (ave, adev, sdev, var, skew / (int n * var * sdev), curt / (int n * var * var) - lit 3)
  else Throw StatisticsError.

(** std::sort on a copy of the data (Statistics.h:134-137 and the same lines in the functions below) *)
Fixpoint sinsert (x : T) (l : list T) : list T := match l with [] => [x] | y :: l' => if y <? x then y :: sinsert x l' else x :: l end.
Definition ssort (l : list T) : list T := fold_right sinsert [] l.
(** subscript with an int *)
Definition zget (l : list T) (i : Z) : res T := if (i <? 0)%Z then UB else vget l (Z.to_nat i).

(** Statistics.h:128-143 Median *)
Definition Median (data : list T) : res T :=
  let n := length data in
  if n <=? 0 then Throw StatisticsError else
  let sorted := ssort data in
  if n mod 2 =? 0 then
    a <- vget sorted (n / 2 - 1) ;; b <- vget sorted (n / 2) ;; Ok ((a + b) / lit 2)
  else vget sorted (n / 2).

(** Statistics.h:156-185 Percentile *)
Definition Percentile (data : list T) (p : T) : res T :=
  let n := length data in
  if n <=? 0 then Throw StatisticsError else
  if (p <? lit 0) || (lit 100 <? p) then Throw StatisticsError else
  let sorted := ssort data in
  if aeqb A p (lit 0) then vget sorted 0 else
  if aeqb A p (lit 100) then vget sorted (n - 1) else
  let rank := p / lit 100 * lit (Z.of_nat n - 1) in
  let lower := sfloor S rank in
  let upper := sceil S rank in
  if (lower =? upper)%Z then zget sorted lower else
  let fraction := rank - lit lower in
  a <- zget sorted lower ;; b <- zget sorted upper ;;
  Ok (a + fraction * (b - a)).

(** Statistics.h:198-206 Quartiles *)
Definition Quartiles (data : list T) : res (T * T * T) :=
  if length data <=? 0 then Throw StatisticsError else
  q1 <- Percentile data (lit 25) ;; q2 <- Percentile data (lit 50) ;; q3 <- Percentile data (lit 75) ;; Ok (q1, q2, q3).

(** Statistics.h:259-272 MinMax: (minVal, maxVal) *)
Definition MinMax (data : list T) : res (T * T) :=
  let n := length data in
  if n <=? 0 then Throw StatisticsError else
  x0 <- vget data 0 ;;
  for_range 1 n (fun mm i => let '(mn, mx) := mm in
    x <- vget data i ;;
    Ok (if x <? mn then x else mn, if mx <? x then x else mx)) (x0, x0).
(** Statistics.h:217-231 Range (the same loop) *)
Definition Range (data : list T) : res T := mm <- MinMax data ;; Ok (snd mm - fst mm).
(** Statistics.h:243-249 IQR *)
Definition IQR (data : list T) : res T :=
  if length data <=? 0 then Throw StatisticsError else
  q3 <- Percentile data (lit 75) ;; q1 <- Percentile data (lit 25) ;; Ok (q3 - q1).

(** Statistics.h:292-326 Mode *)
Definition Mode (data : list T) : res T :=
  let n := length data in
  if n <=? 0 then Throw StatisticsError else
  if n =? 1 then vget data 0 else
  let sorted := ssort data in
  m0 <- vget sorted 0 ;;
  st <- for_range 1 n (fun st i => let '(mode, maxCount, currentCount) := st in
          a <- vget sorted i ;; b <- vget sorted (i - 1) ;;
          if aeqb A a b then Ok (mode, maxCount, Nat.succ currentCount)
          else if (maxCount <? currentCount)%nat then Ok (b, currentCount, 1%nat)
          else Ok (mode, maxCount, 1%nat)) (m0, 1%nat, 1%nat) ;;
  let '(mode, maxCount, currentCount) := st in
  if (maxCount <? currentCount)%nat then vget sorted (n - 1) else Ok mode.

(** Statistics.h:340-368 TrimmedMean *)
Definition TrimmedMean (data : list T) (trimPercent : T) : res T :=
  let n := length data in
  if n <=? 0 then Throw StatisticsError else
  if (trimPercent <? lit 0) || negb (trimPercent <? lit 50) then Throw StatisticsError else
  let sorted := ssort data in
  let trimCount := sfloor S (int n * trimPercent / lit 100) in
  if (trimCount <? 0)%Z then UB else
  st <- for_range (Z.to_nat trimCount) (n - Z.to_nat trimCount) (fun st i => let '(sum, count) := st in
          x <- vget sorted i ;; Ok (sum + x, Nat.succ count)) (lit 0, 0%nat) ;;
  let '(sum, count) := st in
  if count =? 0 then Throw StatisticsError else Ok (sum / int count).

(** Statistics.h:383-396 MAD *)
Definition MAD (data : list T) : res T :=
  let n := length data in
  if n <=? 0 then Throw StatisticsError else
  med <- Median data ;;
  dev <- for_range 0 n (fun v i => x <- vget data i ;; vset v i (aabs A (x - med))) (repeat (lit 0) n) ;;
  Median dev.

(** Statistics.h:410-423 GeometricMean *)
Definition GeometricMean (data : list T) : res T :=
  let n := length data in
  if n <=? 0 then Throw StatisticsError else
  s <- for_range 0 n (fun s i => x <- vget data i ;;
         if negb (lit 0 <? x) then Throw StatisticsError else Ok (s + slog S x)) (lit 0) ;;
  Ok (sexp S (s / int n)).
(** Statistics.h:437-450 HarmonicMean *)
Definition HarmonicMean (data : list T) : res T :=
  let n := length data in
  if n <=? 0 then Throw StatisticsError else
  s <- for_range 0 n (fun s i => x <- vget data i ;;
         if negb (lit 0 <? x) then Throw StatisticsError else Ok (s + lit 1 / x)) (lit 0) ;;
  Ok (int n / s).
(** Statistics.h:463-483 WeightedMean *)
Definition WeightedMean (data weights : list T) : res T :=
  let n := length data in
  if n <=? 0 then Throw StatisticsError else
  if negb (length weights =? n) then Throw StatisticsError else
  st <- for_range 0 n (fun st i => let '(ws, tw) := st in
          w <- vget weights i ;;
          if w <? lit 0 then Throw StatisticsError else
          x <- vget data i ;; Ok (ws + w * x, tw + w)) (lit 0, lit 0) ;;
  let '(ws, tw) := st in
  if negb (lit 0 <? tw) then Throw StatisticsError else Ok (ws / tw).
(** Statistics.h:497-520 WeightedVariance *)
Definition WeightedVariance (data weights : list T) : res T :=
  let n := length data in
  if (n <? 2)%nat then Throw StatisticsError else
  if negb (length weights =? n) then Throw StatisticsError else
  wMean <- WeightedMean data weights ;;
  st <- for_range 0 n (fun st i => let '(ws, tw) := st in
          w <- vget weights i ;;
          if w <? lit 0 then Throw StatisticsError else
          x <- vget data i ;; let diff := x - wMean in Ok (ws + w * diff * diff, tw + w)) (lit 0, lit 0) ;;
  let '(ws, tw) := st in
  if negb (lit 1 <? tw) then Throw StatisticsError else Ok (ws / (tw - lit 1)).

(** Statistics.h:538-555 Covariance *)
Definition Covariance (x y : list T) : res T :=
  let n := length x in
  if n <=? 1 then Throw StatisticsError else
  if negb (length y =? n) then Throw StatisticsError else
  mx <- Avg x ;; my <- Avg y ;;
  c <- for_range 0 n (fun c i => a <- vget x i ;; b <- vget y i ;; Ok (c + (a - mx) * (b - my))) (lit 0) ;;
  Ok (c / lit (Z.of_nat n - 1)).
(** Statistics.h:572-602 PearsonCorrelation *)
Definition PearsonCorrelation (x y : list T) : res T :=
  let n := length x in
  if n <=? 1 then Throw StatisticsError else
  if negb (length y =? n) then Throw StatisticsError else
  mx <- Avg x ;; my <- Avg y ;;
  st <- for_range 0 n (fun st i => let '(sxy, sx2, sy2) := st in
          a <- vget x i ;; b <- vget y i ;;
          let dx := a - mx in let dy := b - my in
          Ok (sxy + dx * dy, sx2 + dx * dx, sy2 + dy * dy)) (lit 0, lit 0, lit 0) ;;
  let '(sxy, sx2, sy2) := st in
  if aeqb A sx2 (lit 0) then Throw StatisticsError else
  if aeqb A sy2 (lit 0) then Throw StatisticsError else
  Ok (sxy / asqrt A (sx2 * sy2)).
(** Statistics.h:629-648 PearsonCorrelationWithTest: (r, tStatistic, degreesOfFreedom); an infinite tStatistic is [inl]
    of "it is positive" *)
Definition PearsonCorrelationWithTest (x y : list T) : res (T * (bool + T) * nat) :=
  let n := length x in
  if n <=? 2 then Throw StatisticsError else
  r <- PearsonCorrelation x y ;;
  let df := Nat.sub n 2 in
  let r2 := r * r in
  let t := if negb (r2 <? lit 1) then inl (lit 0 <? r) else inr (r * asqrt A (int df / (lit 1 - r2))) in
  Ok (r, t, df).
(** Statistics.h:658-661 RSquared *)
Definition RSquared (x y : list T) : res T := r <- PearsonCorrelation x y ;; Ok (r * r).

(** Statistics.h:673-706 CovarianceMatrix *)
Definition CovarianceMatrix (data : matrix T) : res (matrix T) :=
  let n := m_rows data in
  let p := m_cols data in
  if n <=? 1 then Throw StatisticsError else
  if p <=? 0 then Throw StatisticsError else
  means <- for_range 0 p (fun means j =>
             s <- for_range 0 n (fun s i => x <- mget data i j ;; Ok (s + x)) (lit 0) ;;
             vset means j (s / int n)) (repeat (lit 0) p) ;;
  C0 <- mat_new (aops A) (Z.of_nat p) (Z.of_nat p) ;;
  for_range 0 p (fun C j1 => for_range j1 p (fun C j2 =>
    m1 <- vget means j1 ;; m2 <- vget means j2 ;;
    c <- for_range 0 n (fun c i => a <- mget data i j1 ;; b <- mget data i j2 ;; Ok (c + (a - m1) * (b - m2))) (lit 0) ;;
    let cov := c / lit (Z.of_nat n - 1) in
    C1 <- mset C j1 j2 cov ;; mset C1 j2 j1 cov) C) C0.
(** Statistics.h:716-745 CorrelationMatrix *)
Definition CorrelationMatrix (data : matrix T) : res (matrix T) :=
  let n := m_rows data in
  let p := m_cols data in
  if n <=? 1 then Throw StatisticsError else
  if p <=? 0 then Throw StatisticsError else
  C <- CovarianceMatrix data ;;
  sd <- for_range 0 p (fun sd j => c <- mget C j j ;;
          if negb (lit 0 <? c) then Throw StatisticsError else vset sd j (asqrt A c)) (repeat (lit 0) p) ;;
  K0 <- mat_new (aops A) (Z.of_nat p) (Z.of_nat p) ;;
  for_range 0 p (fun K j1 => for_range 0 p (fun K j2 =>
    c <- mget C j1 j2 ;; s1 <- vget sd j1 ;; s2 <- vget sd j2 ;;
    mset K j1 j2 (c / (s1 * s2))) K) K0.

(** ** Ranks.  std::sort of the index vector by value is not stable: the order of the indices of equal values is
    unspecified.  The sorted index vector is the parameter [indices]; the theorems hold for every one that sorts the
    data. *)
Definition rank_eps : T := lit 1 / lit (10 ^ 14).
(** StatisticsRank.h:50-51 extent of the tied values; the fuel is the number of values *)
Fixpoint tie_end (fuel : nat) (data : list T) (indices : list nat) (i j : nat) : res nat :=
  match fuel with
  | 0 => NoFuel
  | Datatypes.S fuel' =>
    if (Nat.succ j <? length data)%nat then
      k <- vget indices (Nat.succ j) ;; b <- vget data k ;;
      k0 <- vget indices i ;; a <- vget data k0 ;;
      if aabs A (b - a) <? rank_eps then tie_end fuel' data indices i (Nat.succ j) else Ok j
    else Ok j
  end.
(** StatisticsRank.h:46-59 the loop over groups of tied values; the fuel is more than the number of values *)
Fixpoint rank_loop (fuel : nat) (data : list T) (indices : list nat) (i : nat) (ranks : list T) : res (list T) :=
  match fuel with
  | 0 => NoFuel
  | Datatypes.S fuel' =>
    if (i <? length data)%nat then
      j <- tie_end (length data) data indices i i ;;
      let avgRank := int (i + 1 + j + 1)%nat / lit 2 in
      ranks' <- for_range i (Nat.succ j) (fun ranks k => d <- vget indices k ;; vset ranks d avgRank) ranks ;;
      rank_loop fuel' data indices (Nat.succ j) ranks'
    else Ok ranks
  end.
(** StatisticsRank.h:29-62 ComputeRanks *)
Definition ComputeRanks (data : list T) (indices : list nat) : res (list T) :=
  let n := length data in
  if n =? 0 then Ok [] else rank_loop (Nat.succ n) data indices 0 (repeat (lit 0) n).

(** StatisticsRank.h:80-94 SpearmanCorrelation; [ix] and [iy] are the index orders std::sort produces *)
Definition SpearmanCorrelation (x y : list T) (ix iy : list nat) : res T :=
  let n := length x in
  if (n <? 2)%nat then Throw StatisticsError else
  if negb (length y =? n) then Throw StatisticsError else
  rx <- ComputeRanks x ix ;; ry <- ComputeRanks y iy ;;
  PearsonCorrelation rx ry.
(** StatisticsRank.h:124-136 SpearmanCorrelationWithTest: (rho, zScore, n) *)
Definition SpearmanCorrelationWithTest (x y : list T) (ix iy : list nat) : res (T * T * nat) :=
  let n := length x in
  if (n <? 3)%nat then Throw StatisticsError else
  rho <- SpearmanCorrelation x y ix iy ;;
  Ok (rho, rho * asqrt A (lit (Z.of_nat n - 1)), n).

(** StatisticsRank.h:176-197 the four counters; the [long long] counters are unbounded here *)
Definition kendall_pair (dx dy : T) (st : nat * nat * nat * nat) : nat * nat * nat * nat :=
  let '(c, d, tx, ty) := st in
  let xTied := aabs A dx <? rank_eps in
  let yTied := aabs A dy <? rank_eps in
  if xTied && yTied then (c, d, tx, ty)
  else if xTied then (c, d, Nat.succ tx, ty)
  else if yTied then (c, d, tx, Nat.succ ty)
  else if ((lit 0 <? dx) && (lit 0 <? dy)) || ((dx <? lit 0) && (dy <? lit 0)) then (Nat.succ c, d, tx, ty)
  else (c, Nat.succ d, tx, ty).
Definition kendall_counts (x y : list T) : res (nat * nat * nat * nat) :=
  let n := length x in
  for_range 0 (Nat.sub n 1) (fun st i => for_range (Nat.succ i) n (fun st j =>
    xj <- vget x j ;; xi <- vget x i ;; yj <- vget y j ;; yi <- vget y i ;;
    Ok (kendall_pair (xj - xi) (yj - yi) st)) st) (0, 0, 0, 0)%nat.
(** StatisticsRank.h:160-208 KendallCorrelation *)
Definition KendallCorrelation (x y : list T) : res T :=
  let n := length x in
  if (n <? 2)%nat then Throw StatisticsError else
  if negb (length y =? n) then Throw StatisticsError else
  st <- kendall_counts x y ;;
  let '(c, d, tx, ty) := st in
  let numerator := lit (Z.of_nat c - Z.of_nat d) in
  let denom1 := lit (Z.of_nat c + Z.of_nat d + Z.of_nat tx) in
  let denom2 := lit (Z.of_nat c + Z.of_nat d + Z.of_nat ty) in
  if negb (lit 0 <? denom1) || negb (lit 0 <? denom2) then Ok (lit 0)
  else Ok (numerator / asqrt A (denom1 * denom2)).
(** StatisticsRank.h:222-236 KendallCorrelationWithTest: (rho, zScore, n) *)
Definition KendallCorrelationWithTest (x y : list T) : res (T * T * nat) :=
  let n := length x in
  if (n <? 3)%nat then Throw StatisticsError else
  tau <- KendallCorrelation x y ;;
  let variance := lit 2 * (lit 2 * int n + lit 5) / (lit 9 * int n * lit (Z.of_nat n - 1)) in
  Ok (tau, tau / asqrt A variance, n).
End Stat.
