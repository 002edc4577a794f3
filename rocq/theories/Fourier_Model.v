(** * Model of the Fourier transforms (mml/algorithms/Fourier.h, mml/algorithms/FourierRealFFT.h)

    Arithmetic is exact ([arith T] of RootFind_Model.v) together with a cosine, a sine and the constant PI.  A complex
    number is the pair of its parts; [Complex * Real] and [Complex / Real] work on the parts, as std::complex does.
    The ...Detailed variants, which only add timing and status, are left out. *)

From Coq Require Import List Bool Arith ZArith.
From Verif Require Import Base Num RootFind_Model.
Import ListNotations.

Record trig (T : Type) := mkTrig { tar : arith T; tcos : T -> T; tsin : T -> T; tpi : T }.
Arguments tar {T} _. Arguments tcos {T} _ _. Arguments tsin {T} _ _. Arguments tpi {T} _.

(** for (i = lo; i < hi; i += step) with a positive step *)
Definition for_stride {S} (lo hi step : nat) (f : S -> nat -> res S) (s : S) : res S :=
  for_range 0 ((hi - lo + step - 1) / step) (fun s q => f s (lo + q * step)) s.

(** Fourier.h:117 and 441  IsPowerOfTwo: (n > 0) && ((n & (n - 1)) == 0) *)
Definition IsPowerOfTwo (n : Z) : bool := (0 <? n)%Z && (Z.land n (n - 1) =? 0)%Z.
(** Fourier.h:450-454  the loop of NextPowerOfTwo; doubling 2^30 leaves the range of int ([UB]) *)
Fixpoint next_pow2_loop (fuel : nat) (power n : Z) : res Z :=
  match fuel with
  | 0 => NoFuel
  | S fuel' => if (power <? n)%Z then (if (2 ^ 31 <=? 2 * power)%Z then UB else next_pow2_loop fuel' (2 * power) n) else Ok power
  end.
(** Fourier.h:444-455  NextPowerOfTwo *)
Definition NextPowerOfTwo (n : Z) : res Z :=
  if (n <=? 0)%Z then Ok 1%Z else if IsPowerOfTwo n then Ok n else next_pow2_loop 32 1 n.
(** Fourier.h:475-482  Log2: while (n > 1) { n >>= 1; log++; } *)
Fixpoint log2_loop (fuel : nat) (n : Z) (log : Z) : res Z :=
  match fuel with
  | 0 => NoFuel
  | S fuel' => if (1 <? n)%Z then log2_loop fuel' (Z.shiftr n 1) (log + 1) else Ok log
  end.
Definition Log2 (n : Z) : res Z := log2_loop 33 n 0.

(** Fourier.h:531-537  one step of the bit-reversed counter: k = n >> 1; while (k <= j) { j -= k; k >>= 1; } j += k;
    ([fuel] rounds at most) *)
Fixpoint bitrev_inc (fuel k j : nat) : res nat :=
  match fuel with
  | 0 => NoFuel
  | S fuel' => if k <=? j then bitrev_inc fuel' (k / 2) (j - k) else Ok (j + k)
  end.
(** std::swap(data[i], data[j]) *)
Definition vswap {A} (v : list A) (i j : nat) : res (list A) :=
  a <- vget v i ;; b <- vget v j ;; v <- vset v i b ;; vset v j a.
(** Fourier.h:522-539  BitReversalPermute *)
Definition BitReversalPermute {A} (data : list A) : res (list A) :=
  let n := length data in
  '(_, data) <- for_range 0 (n - 1) (fun '(j, data) i =>
    data <- (if i <? j then vswap data i j else Ok data) ;;
    j <- bitrev_inc (S n) (n / 2) j ;;
    Ok (j, data)) (0, data) ;;
  Ok data.

Section Fourier.
Context {T : Type} (A : trig T).
Local Notation ops := (aops (tar A)).
Local Notation "a + b" := (nadd ops a b).
Local Notation "a - b" := (nsub ops a b).
Local Notation "a * b" := (nmul ops a b).
Local Notation "a / b" := (ndiv ops a b).
Local Notation "- a" := (nopp ops a).
Local Notation lit := (alit (tar A)).
Local Notation int k := (alit (tar A) (Z.of_nat k)).
Definition cplx : Type := (T * T)%type.
Definition cadd (a b : cplx) : cplx := (fst a + fst b, snd a + snd b).
Definition csub (a b : cplx) : cplx := (fst a - fst b, snd a - snd b).
Definition cmul (a b : cplx) : cplx := (fst a * fst b - snd a * snd b, fst a * snd b + snd a * fst b).
Definition cscale (r : T) (a : cplx) : cplx := (r * fst a, r * snd a).
Definition cdivr (a : cplx) (r : T) : cplx := (fst a / r, snd a / r).
Definition conj (a : cplx) : cplx := (fst a, - snd a).
Definition czero : cplx := (lit 0, lit 0).
Definition cone : cplx := (lit 1, lit 0).
(** Complex(cos(t), sin(t)); also std::exp(Complex(0, t)) *)
Definition cis (t : T) : cplx := (tcos A t, tsin A t).
Definition lhalf : T := lit 1 / lit 2.

(** ** DFT *)
(** Fourier.h:204-222  DFT::Forward; 280-294 ComputeBin has the same inner loop *)
Definition dft_bin (sign : T) (data : list cplx) (k : nat) : res cplx :=
  let N := length data in
  let two_pi := lit 2 * tpi A in
  for_range 0 N (fun sum n =>
    let angle := sign * two_pi * int k * int n / int N in
    x <- vget data n ;; Ok (cadd sum (cmul x (cis angle)))) czero.
Definition DFT_Forward (data : list cplx) : res (list cplx) :=
  let N := length data in
  if Nat.eqb N 0 then Throw InvalidArgument
  else for_range 0 N (fun result k => s <- dft_bin (- lit 1) data k ;; vset result k s) (repeat czero N).
(** Fourier.h:225-235  the variant for real input *)
Definition DFT_Forward_real (data : list T) : res (list cplx) :=
  let N := length data in
  if Nat.eqb N 0 then Throw InvalidArgument
  else
    c <- for_range 0 N (fun c i => x <- vget data i ;; vset c i (x, lit 0)) (repeat czero N) ;;
    DFT_Forward c.
(** Fourier.h:238-256  DFT::Inverse *)
Definition DFT_Inverse (spectrum : list cplx) : res (list cplx) :=
  let N := length spectrum in
  if Nat.eqb N 0 then Throw InvalidArgument
  else for_range 0 N (fun result n => s <- dft_bin (lit 1) spectrum n ;; vset result n (cdivr s (int N))) (repeat czero N).
(** Fourier.h:259-269  DFT::InverseReal *)
Definition DFT_InverseReal (spectrum : list cplx) : res (list T) :=
  c <- DFT_Inverse spectrum ;;
  for_range 0 (length c) (fun r i => z <- vget c i ;; vset r i (fst z)) (repeat (lit 0) (length c)).
(** Fourier.h:280-294  DFT::ComputeBin *)
Definition DFT_ComputeBin (data : list cplx) (k : Z) : res cplx :=
  if ((k <? 0) || (Z.of_nat (length data) <=? k))%Z then Throw InvalidArgument else dft_bin (- lit 1) data (Z.to_nat k).

(** ** FFT *)
(** Fourier.h:400-407  one butterfly *)
Definition butterfly (w : cplx) (mmax : nat) (data : list cplx) (i : nat) : res (list cplx) :=
  let j := Nat.add i mmax in
  dj <- vget data j ;;
  let temp := cmul w dj in
  u <- vget data i ;;
  data <- vset data j (csub u temp) ;;
  vset data i (cadd u temp).
(** Fourier.h:391-411  one round of the outer loop *)
Definition fft_stage (isign : Z) (mmax : nat) (data : list cplx) : res (list cplx) :=
  let n := length data in
  let theta := lit (- isign) * tpi A / int mmax in
  let wp := cis theta in
  '(_, data) <- for_range 0 mmax (fun '(w, data) m =>
    data <- for_stride m n (Nat.mul 2 mmax) (butterfly w mmax) data ;;
    Ok (cmul w wp, data)) (cone, data) ;;
  Ok data.
(** Fourier.h:389-412  while (n > mmax) *)
Fixpoint fft_stages (fuel : nat) (isign : Z) (mmax : nat) (data : list cplx) : res (list cplx) :=
  match fuel with
  | 0 => NoFuel
  | S fuel' =>
    if mmax <? length data then
      data <- fft_stage isign mmax data ;; fft_stages fuel' isign (Nat.mul 2 mmax) data
    else Ok data
  end.
(** Fourier.h:381-413  FFT::Transform *)
Definition FFT_Transform (data : list cplx) (isign : Z) : res (list cplx) :=
  let n := length data in
  if Nat.eqb n 0 then Throw InvalidArgument
  else if negb (IsPowerOfTwo (Z.of_nat n)) then Throw InvalidArgument
  else
    data <- BitReversalPermute data ;;
    fft_stages (S n) isign 1 data.
(** Fourier.h:416-420  FFT::Forward *)
Definition FFT_Forward (data : list cplx) : res (list cplx) := FFT_Transform data 1.
(** Fourier.h:423-434  FFT::Inverse: the result is multiplied by norm = 1.0 / size *)
Definition FFT_Inverse (spectrum : list cplx) : res (list cplx) :=
  r <- FFT_Transform spectrum (-1) ;;
  let norm := lit 1 / int (length r) in
  for_range 0 (length r) (fun r i => z <- vget r i ;; vset r i (cscale norm z)) r.
(** Fourier.h:458-472  FFT::ZeroPad *)
Definition FFT_ZeroPad (data : list cplx) : res (list cplx) :=
  let n := length data in
  p <- NextPowerOfTwo (Z.of_nat n) ;;
  if Z.eqb p (Z.of_nat n) then Ok data
  else for_range 0 n (fun pd i => x <- vget data i ;; vset pd i x) (repeat czero (Z.to_nat p)).

(** ** Real FFT *)
(** FourierRealFFT.h:51-93  RealFFT::Forward *)
(** 57-59: pairs of samples as complex numbers *)
Definition real_pack (data : list T) (n2 : nat) : res (list cplx) :=
  for_range 0 n2 (fun t i => a <- vget data (Nat.mul 2 i) ;; b <- vget data (Nat.add (Nat.mul 2 i) 1) ;; vset t i (a, b)) (repeat czero n2).
(** 78-89 and 121-130: even + w * odd *)
Definition real_split (c : T) (w z1 z2 : cplx) : cplx :=
  let even := cscale lhalf (cadd z1 z2) in
  let odd := cmul (lit 0, c) (csub z1 z2) in
  cadd even (cmul w odd).
Definition RealFFT_Forward (data : list T) : res (list cplx) :=
  let n := length data in
  if (n <? 2) || negb (IsPowerOfTwo (Z.of_nat n)) then Throw InvalidArgument
  else
    let n2 := Nat.div n 2 in
    t <- real_pack data n2 ;;
    t <- FFT_Transform t 1 ;;
    t0 <- vget t 0 ;;
    r <- vset (repeat czero (Nat.add n2 1)) 0 (fst t0 + snd t0, lit 0) ;;
    r <- vset r n2 (fst t0 - snd t0, lit 0) ;;
    let theta := (- tpi A) / int n2 in
    for_range 1 n2 (fun r k =>
      let w := cis (int k * theta) in
      z1 <- vget t k ;; z2 <- vget t (Nat.sub n2 k) ;;
      vset r k (real_split (- lhalf) w z1 (conj z2))) r.
(** FourierRealFFT.h:103-148  RealFFT::Inverse *)
Definition RealFFT_Inverse (spectrum : list cplx) : res (list T) :=
  let n2 := Nat.sub (length spectrum) 1 in
  let n := Nat.mul 2 n2 in
  if n2 <? 1 then Throw InvalidArgument
  else
    s0 <- vget spectrum 0 ;; sn <- vget spectrum n2 ;;
    t <- vset (repeat czero n2) 0 (lhalf * (fst s0 + fst sn), lhalf * (fst s0 - fst sn)) ;;
    let theta := tpi A / int n2 in
    t <- for_range 1 n2 (fun t k =>
      let w := cis (int k * theta) in
      z1 <- vget spectrum k ;; z2 <- vget spectrum (Nat.sub n2 k) ;;
      vset t k (real_split lhalf w z1 (conj z2))) t ;;
    t <- FFT_Transform t (-1) ;;
    r <- for_range 0 n2 (fun r i => z <- vget t i ;; r <- vset r (Nat.mul 2 i) (fst z) ;; vset r (Nat.add (Nat.mul 2 i) 1) (snd z)) (repeat (lit 0) n) ;;
    for_range 0 n (fun r i => x <- vget r i ;; vset r i (x / int n2)) r.
(** FourierRealFFT.h:163-220  RealFFT::Transform, in place, packed format *)
Definition RealFFT_Transform (data : list T) (isign : Z) : res (list T) :=
  let n := length data in
  if (n <? 2) || negb (IsPowerOfTwo (Z.of_nat n)) then Throw InvalidArgument
  else
    let n2 := Nat.div n 2 in
    t <- real_pack data n2 ;;
    t <- FFT_Transform t isign ;;
    if Z.eqb isign 1 then
      t0 <- vget t 0 ;;
      data <- vset data 0 (fst t0 + snd t0) ;;
      data <- vset data 1 (fst t0 - snd t0) ;;
      let theta := (- tpi A) / int n2 in
      for_range 1 n2 (fun data k =>
        let w := cis (int k * theta) in
        z1 <- vget t k ;; z2 <- vget t (Nat.sub n2 k) ;;
        let r := real_split (- lhalf) w z1 (conj z2) in
        data <- vset data (Nat.mul 2 k) (fst r) ;;
        vset data (Nat.add (Nat.mul 2 k) 1) (snd r)) data
    else
      d0 <- vget data 0 ;; d1 <- vget data 1 ;;
      t <- vset t 0 (lhalf * (d0 + d1), lhalf * (d0 - d1)) ;;
      let theta := tpi A / int n2 in
      t <- for_range 1 n2 (fun t k =>
        a <- vget data (Nat.mul 2 k) ;; b <- vget data (Nat.add (Nat.mul 2 k) 1) ;;
        c <- vget data (Nat.sub n (Nat.mul 2 k)) ;; d <- vget data (Nat.add (Nat.sub n (Nat.mul 2 k)) 1) ;;
        let w := cis (int k * theta) in
        vset t k (real_split lhalf w (a, b) (c, - d))) t ;;
      t <- FFT_Transform t (-1) ;;
      for_range 0 n2 (fun data i =>
        z <- vget t i ;; data <- vset data (Nat.mul 2 i) (fst z / int n2) ;; vset data (Nat.add (Nat.mul 2 i) 1) (snd z / int n2)) data.

(** ** DCT and DST *)
(** Fourier.h:714-733  ForwardII_Reference *)
Definition DCT_ForwardII_Reference (data : list T) : res (list T) :=
  let N := length data in
  if Nat.eqb N 0 then Throw InvalidArgument
  else
    let fac := lit 2 / int N in
    for_range 0 N (fun r k =>
      s <- for_range 0 N (fun s n => x <- vget data n ;; Ok (s + x * tcos A (tpi A * int k * (int n + lhalf) / int N))) (lit 0) ;;
      vset r k (fac * s)) (repeat (lit 0) N).
(** Fourier.h:738-759  InverseII_Reference *)
Definition DCT_InverseII_Reference (coef : list T) : res (list T) :=
  let N := length coef in
  if Nat.eqb N 0 then Throw InvalidArgument
  else
    for_range 0 N (fun r n =>
      c0 <- vget coef 0 ;;
      s <- for_range 1 N (fun s k => c <- vget coef k ;; Ok (s + c * tcos A (tpi A * int k * (int n + lhalf) / int N))) (c0 / lit 2) ;;
      vset r n s) (repeat (lit 0) N).
(** Fourier.h:630-665  ForwardII_Fast *)
Definition DCT_ForwardII_Fast (data : list T) : res (list T) :=
  let N := length data in
  if Nat.eqb N 0 then Throw InvalidArgument
  else if negb (IsPowerOfTwo (Z.of_nat N)) then Throw InvalidArgument
  else
    let N2 := Nat.mul 2 N in
    y <- for_range 0 N (fun y n => x <- vget data n ;; vset y n (x, lit 0)) (repeat czero N2) ;;
    y <- for_range N N2 (fun y n => x <- vget data (Nat.sub (Nat.sub N2 1) n) ;; vset y n (x, lit 0)) y ;;
    y <- FFT_Transform y 1 ;;
    let scale := lit 1 / int N in
    for_range 0 N (fun r k =>
      z <- vget y k ;;
      vset r k (scale * fst (cmul (cis ((- tpi A) * int k / int N2)) z))) (repeat (lit 0) N).
(** Fourier.h:672-709  InverseII_Fast *)
Definition DCT_InverseII_Fast (coef : list T) : res (list T) :=
  let N := length coef in
  if Nat.eqb N 0 then Throw InvalidArgument
  else if negb (IsPowerOfTwo (Z.of_nat N)) then Throw InvalidArgument
  else
    let N2 := Nat.mul 2 N in
    y <- for_range 0 N (fun y k => c <- vget coef k ;; vset y k (cscale c (cis (tpi A * int k / int N2)))) (repeat czero N2) ;;
    y <- for_range 1 N (fun y k => z <- vget y k ;; vset y (Nat.sub N2 k) (conj z)) y ;;
    y <- FFT_Transform y (-1) ;;
    for_range 0 N (fun r n => z <- vget y n ;; vset r n (fst z * lhalf)) (repeat (lit 0) N).
(** Fourier.h:586-601, 605-618  ForwardII and InverseII; FAST_DCT_THRESHOLD = 32 *)
Definition DCT_ForwardII (data : list T) : res (list T) :=
  let N := length data in
  if Nat.eqb N 0 then Throw InvalidArgument
  else if (N <? 32) || negb (IsPowerOfTwo (Z.of_nat N)) then DCT_ForwardII_Reference data else DCT_ForwardII_Fast data.
Definition DCT_InverseII (coef : list T) : res (list T) :=
  let N := length coef in
  if Nat.eqb N 0 then Throw InvalidArgument
  else if (N <? 32) || negb (IsPowerOfTwo (Z.of_nat N)) then DCT_InverseII_Reference coef else DCT_InverseII_Fast coef.
(** Fourier.h:774-793  ForwardDST; 799-801 InverseDST is the same function *)
Definition DCT_ForwardDST (data : list T) : res (list T) :=
  let N := length data in
  if Nat.eqb N 0 then Throw InvalidArgument
  else
    let norm := asqrt (tar A) (lit 2 / int (Nat.add N 1)) in
    for_range 0 N (fun r k =>
      s <- for_range 0 N (fun s n => x <- vget data n ;; Ok (s + x * tsin A (tpi A * int (Nat.add k 1) * int (Nat.add n 1) / int (Nat.add N 1)))) (lit 0) ;;
      vset r k (norm * s)) (repeat (lit 0) N).
Definition DCT_InverseDST (coef : list T) : res (list T) := DCT_ForwardDST coef.
End Fourier.
