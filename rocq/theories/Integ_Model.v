(** * Model of one-dimensional integration
      (mml/core/Integration/Integration1D.h, GaussKronrod.h; IntegrationBase.h:12-28 IntegrationResult)

    Arithmetic is exact ([arith T] of RootFind_Model.v).  The integrand is a total function without side effects: values
    that are not finite and exceptions from the integrand are left out.  The step limits of the context
    (MMLBase.h:205-208) are parameters.  The number of subdivisions is an unbounded [nat]: in the code it is an int and
    overflows at the 33rd step (the default limit is 20).  The Detailed variants (timing, names, texts) are left out. *)

From Coq Require Import List Bool Arith ZArith.
From Verif Require Import Base Num RootFind_Model Tri_Model Interp_Model.
Import ListNotations.

(** GaussKronrod.h:59-68, 71-80, 85-90: nodes and weights times 10^35 *)
Definition xGK15 : list Z := [0; 20778495500789846760068940377324491; 40584515137739716690660641207696146; 58608723546769113029414483825872959; 74153118559939443986386477328078841; 86486442335976907278971278864092620; 94910791234275852452618968404785126; 99145537112081263920685469752632851]%Z.
Definition wGK15 : list Z := [20948214108472782801299917489171426; 20443294007529889241416199923464908; 19035057806478540991325640242101368; 16900472663926790282658342659855028; 14065325971552591874518959051023792; 10479001032225018383987632254151801; 6309209262997855329070066318920429; 2293532201052922496373200805896959]%Z.
Definition wG7 : list Z := [41795918367346938775510204081632653; 38183005050511894495036977548897513; 27970539148927666790146777142377958; 12948496616886969327061143267908202]%Z.
(** GaussKronrod.h:155-167, 170-176, 179-191: times 10^33 *)
Definition xGK21 : list Z := [995657163025808080735527280689003; 973906528517171720077964012084452; 930157491355708226001207180059508; 865063366688984510732096688423493; 780817726586416897063717578345042; 679409568299024406234327365114874; 562757134668604683339000099272694; 433395394129247190799265943165784; 294392862701460198131126603103866; 148874338981631210884826001129720; 0]%Z.
Definition wG10 : list Z := [66671344308688137593568809893332; 149451349150580593145776339657697; 219086362515982043995534934228163; 269266719309996355091226921569469; 295524224714752870173892994651338]%Z.
Definition wGK21 : list Z := [11694638867371874278064396062192; 32558162307964727478818972459390; 54755896574351996031381300244580; 75039674810919952767043140916190; 93125454583697605535065465083366; 109387158802297641899210590325805; 123491976262065851077958109831074; 134709217311473325928054001771707; 142775938577060080797094273138717; 147739104901338491374841515972068; 149445554002916905664936468389821]%Z.
(** GaussKronrod.h:247-264, 268-277, 280-297: times 10^33 *)
Definition xGK31 : list Z := [998002298693397060285172840152271; 987992518020485428489565718586613; 967739075679139134257347978784337; 937273392400705904307758947710209; 897264532344081900882509656454496; 848206583410427216200648320774217; 790418501442465932967649294817947; 724417731360170047416186054613938; 650996741297416970533735895313275; 570972172608538847537226737253911; 485081863640239680693655740232351; 394151347077563369897207370981045; 299180007153168812166780024266389; 201194093997434522300628303394596; 101142066918717499027074231447392; 0]%Z.
Definition wG15 : list Z := [30753241996117268354628393577204; 70366047488108124709267416450667; 107159220467171935011869546685869; 139570677926154314447804794511028; 166269205816993933553200860481209; 186161000015562211026800561866423; 198431485327111576456118326443839; 202578241925561272880620199967519]%Z.
Definition wGK31 : list Z := [5377479872923348987792051430128; 15007947329316122538374763075807; 25460847326715320186874001019653; 35346360791375846222037948478360; 44589751324764876608227299373280; 53481524690928087265343147239430; 62009567800670640285139230960803; 69854121318728258709520077099147; 76849680757720378894432777482659; 83080502823133021038289247286104; 88564443056211770647275443693774; 93126598170825321225486872747346; 96642726983623678505179907627589; 99173598721791959332393173484603; 100769845523875595044946662617570; 101330007014791549017374792767493]%Z.
(** Integration1D.h:354-358: times 10^16 *)
Definition xG10s : list Z := [1488743389816312; 4333953941292472; 6794095682990244; 8650633666889845; 9739065285171717]%Z.
Definition wG10s : list Z := [2955242247147529; 2692667193099963; 2190863625159821; 1494513491505806; 666713443086881]%Z.

Section Integ.
Context {T : Type} (A : arith T).
Local Notation "a + b" := (nadd (aops A) a b).
Local Notation "a - b" := (nsub (aops A) a b).
Local Notation "a * b" := (nmul (aops A) a b).
Local Notation "a / b" := (ndiv (aops A) a b).
Local Notation "- a" := (nopp (aops A) a).
Local Notation "a <? b" := (altb A a b).
Local Notation "a <=? b" := (negb (altb A b a)).
Local Notation lit := (alit A).
Local Notation abs := (aabs A).
Local Notation half := (lit 1 / lit 2).
Local Notation int n := (lit (Z.of_nat n)).

(** IntegrationBase.h:12-28: value, error_estimate, iterations, converged *)
Record ires := mkI { ir_value : T; ir_err : T; ir_iters : nat; ir_conv : bool }.
(** std::numeric_limits<double>::epsilon() *)
Definition mach_eps : T := lit 1 / lit (2 ^ 52).

(** ** Trapezoidal rule *)
(** Integration1D.h:67-68: subDivNum at step [k] *)
Definition subdiv (k : nat) : nat := Nat.iter (Nat.sub k 2) (fun n => Nat.mul n 2) 1.
(** Integration1D.h:73-74 *)
Fixpoint mid_sum (f : T -> T) (x del : T) (n : nat) (sum : T) : T :=
  match n with 0 => sum | S n' => mid_sum f (x + del) del n' (sum + f x) end.
(** Integration1D.h:58-80 TrapIntegrator::next; the state is (_currStep, _currSum) *)
Definition trap_next (f : T -> T) (a b : T) (st : nat * T) : nat * T :=
  let '(step, currSum) := st in
  let step := S step in
  if Nat.eqb step 1 then (step, half * (b - a) * (f a + f b))
  else
    let n := subdiv step in
    let del := (b - a) / int n in
    let x := a + half * del in
    let sum := mid_sum f x del n (lit 0) in
    (step, half * (currSum + (b - a) * sum / int n)).
(** Integration1D.h:95-121 IntegrateTrap: [n] steps are left, [curr] is uninitialised before the first; 40, 55-56 the integrator *)
Fixpoint trap_loop (f : T -> T) (a b eps : T) (n j : nat) (st : nat * T) (curr : option T) (old : T) : res ires :=
  match n with
  | 0 => match curr with None => UB | Some c => Ok (mkI c (abs (c - old)) j false) end
  | S n' =>
    let st := trap_next f a b st in
    let c := snd st in
    if Nat.ltb 5 j && (abs (c - old) <? eps * abs old + eps * mach_eps) then Ok (mkI c (abs (c - old)) j true)
    else trap_loop f a b eps n' (S j) st (Some c) c
  end.
Definition IntegrateTrap (maxSteps : Z) (f : T -> T) (a b eps : T) : res ires :=
  trap_loop f a b eps (Z.to_nat maxSteps) 0 (0, lit 0) None (lit 0).
(** Integration1D.h:133-163 IntegrateSimpson *)
Fixpoint simp_loop (f : T -> T) (a b eps : T) (n j : nat) (st : nat * T) (curr : option T) (ost old : T) : res ires :=
  match n with
  | 0 => match curr with None => UB | Some c => Ok (mkI c (abs (c - old)) j false) end
  | S n' =>
    let st := trap_next f a b st in
    let c := (lit 4 * snd st - ost) / lit 3 in
    if Nat.ltb 5 j && (abs (c - old) <? eps * abs old + eps * mach_eps) then Ok (mkI c (abs (c - old)) j true)
    else simp_loop f a b eps n' (S j) st (Some c) (snd st) c
  end.
Definition IntegrateSimpson (maxSteps : Z) (f : T -> T) (a b eps : T) : res ires :=
  simp_loop f a b eps (Z.to_nat maxSteps) 0 (0, lit 0) None (lit 0) (lit 0).

(** ** Romberg *)
(** MMLPrecision.h:154 DivisionSafetyThreshold *)
Definition DivisionSafetyThreshold : T := lit 1 / lit (10 ^ 30).
(** Integration1D.h:236-253: the index of the smallest h, and the column c (d starts equal to it); [base] is j - K + 1 *)
Definition romb_init (s h : list T) (base K : nat) : res (nat * list T) :=
  h0 <- vget h base ;;
  '(ns, _, c) <- for_range 0 K (fun '(ns, dif, c) i =>
    hi <- vget h (Nat.add base i) ;;
    let dift := abs hi in
    si <- vget s (Nat.add base i) ;;
    c <- vset c i si ;;
    Ok (if dift <? dif then (i, dift, c) else (ns, dif, c))) (0, abs h0, repeat (lit 0) K) ;;
  Ok (ns, c).
(** Integration1D.h:261-277: one column; [inr tt] is the early return *)
Definition romb_column (h : list T) (base K m : nat) (c d : list T) : res ((list T * list T) + unit) :=
  for_each_brk (fun '(c, d) i =>
    ho <- vget h (Nat.add base i) ;; hp <- vget h (Nat.add (Nat.add base i) m) ;;
    ci <- vget c (Nat.add i 1) ;; di <- vget d i ;;
    let w := ci - di in
    let den := ho - hp in
    if abs den <? DivisionSafetyThreshold then Ok (inr tt)
    else
      let den := w / den in
      d <- vset d i (hp * den) ;; c <- vset c i (ho * den) ;; Ok (inl (c, d))) (seq 0 (Nat.sub K m)) (c, d).
(** Integration1D.h:234-286: (ss, dss); [inr]: the early return *)
Definition romb_extrap (s h : list T) (base K : nat) (dss : T) : res ((T * T) + (T * T)) :=
  '(ns, c) <- romb_init s h base K ;;
  ss <- vget s (Nat.add base ns) ;;
  r <- for_each_brk (fun '(c, d, ss, dss, ns) m =>
    r <- romb_column h base K m c d ;;
    match r with
    | inr _ => Ok (inr (ss, dss))
    | inl (c, d) =>
      if (2 * (ns + 1) <? Z.of_nat K - Z.of_nat m)%Z
      then dy <- zget c (ns + 1)%Z ;; Ok (inl (c, d, ss + dy, dy, ns))
      else dy <- zget d ns ;; Ok (inl (c, d, ss + dy, dy, (ns - 1)%Z))
    end) (seq 1 (Nat.sub K 1)) (c, c, ss, dss, (Z.of_nat ns - 1)%Z) ;;
  match r with inl (_, _, ss, dss, _) => Ok (inl (ss, dss)) | inr p => Ok (inr p) end.
(** Integration1D.h:228-301: [n] steps are left; the test j >= K - 1 is K <= j + 1 *)
Fixpoint romb_loop (f : T -> T) (a b eps : T) (K n j : nat) (st : nat * T) (s h : list T) (ss dss : T) : res ires :=
  match n with
  | 0 => Ok (mkI ss (abs dss) j false)
  | S n' =>
    let st := trap_next f a b st in
    s <- vset s j (snd st) ;;
    let next ss dss := hj <- vget h j ;; h <- vset h (S j) (lit 1 / lit 4 * hj) ;; romb_loop f a b eps K n' (S j) st s h ss dss in
    if Nat.leb K (S j) then
      r <- romb_extrap s h (Nat.sub (S j) K) K dss ;;
      match r with
      | inr (ss, dss) => Ok (mkI ss (abs dss) (S j) false)
      | inl (ss, dss) => if abs dss <=? eps * abs ss + eps * mach_eps then Ok (mkI ss (abs dss) (S j) true) else next ss dss
      end
    else next ss dss
  end.
(** Integration1D.h:213-226; a negative number of steps makes a vector of enormous size *)
Definition IntegrateRomberg (maxSteps : Z) (K : nat) (f : T -> T) (a b eps : T) : res ires :=
  if (maxSteps <? 0)%Z then Throw LengthError else
  let JMAX := Z.to_nat maxSteps in
  h <- vset (repeat (lit 0) (S JMAX)) 0 (lit 1) ;;
  romb_loop f a b eps K JMAX 0 (0, lit 0) (repeat (lit 0) JMAX) h (lit 0) (lit 0).

(** ** Gauss-Legendre with ten points: Integration1D.h:351-376 *)
Definition dec (l : list Z) (d : Z) (i : nat) : T := lit (nth i l 0%Z) / lit (10 ^ d)%Z.
Definition IntegrateGauss10 (f : T -> T) (a b : T) : ires :=
  let xm := half * (b + a) in
  let xr := half * (b - a) in
  let s := fold_left (fun s j => let dx := xr * dec xG10s 16 j in s + dec wG10s 16 j * (f (xm + dx) + f (xm - dx))) (seq 0 5) (lit 0) in
  mkI (s * xr) (lit 0) 1 true.

(** ** Gauss-Kronrod rules: value, error_estimate, function_evals, converged *)
(** GaussKronrod.h:101-139 IntegrateGK15 *)
Definition IntegrateGK15 (f : T -> T) (a b : T) : ires :=
  let center := half * (a + b) in
  let half_length := half * (b - a) in
  let f_center := f center in
  let '(g, k) := fold_left (fun '(g, k) i =>
    let x_scaled := half_length * dec xGK15 35 i in
    let f_sum := f (center + x_scaled) + f (center - x_scaled) in
    let k := k + dec wGK15 35 i * f_sum in
    if Nat.eqb i 2 then (g + dec wG7 35 1 * f_sum, k)
    else if Nat.eqb i 4 then (g + dec wG7 35 2 * f_sum, k)
    else if Nat.eqb i 6 then (g + dec wG7 35 3 * f_sum, k)
    else (g, k)) (seq 1 7) (dec wG7 35 0 * f_center, dec wGK15 35 0 * f_center) in
  let g := g * half_length in
  let k := k * half_length in
  mkI k (abs (k - g)) 15 true.
(** GaussKronrod.h:151-230 IntegrateGK21, 243-336 IntegrateGK31: [c] is the index of the centre, [gc] the Gauss weight of the centre,
    the odd indices belong to both rules, the even ones only to Kronrod's *)
Definition gk_pairs (f : T -> T) (xs wg wk : list Z) (center half_length : T) (odd even : nat) (g k : T) : T * T :=
  let pair i := let x_scaled := half_length * dec xs 33 i in f (center + x_scaled) + f (center - x_scaled) in
  let '(g, k) := fold_left (fun '(g, k) j => let jtw := Nat.add (Nat.mul j 2) 1 in (g + dec wg 33 j * pair jtw, k + dec wk 33 jtw * pair jtw)) (seq 0 odd) (g, k) in
  (g, fold_left (fun k j => let jtwm1 := Nat.mul j 2 in k + dec wk 33 jtwm1 * pair jtwm1) (seq 0 even) k).
Definition IntegrateGK21 (f : T -> T) (a b : T) : ires :=
  let center := half * (a + b) in
  let half_length := half * (b - a) in
  let f_center := f center in
  let '(g, k) := gk_pairs f xGK21 wG10 wGK21 center half_length 5 5 (lit 0) (dec wGK21 33 10 * f_center) in
  let g := g * half_length in
  let k := k * half_length in
  mkI k (abs (k - g)) 21 true.
Definition IntegrateGK31 (f : T -> T) (a b : T) : ires :=
  let center := half * (a + b) in
  let half_length := half * (b - a) in
  let f_center := f center in
  let '(g, k) := gk_pairs f xGK31 wG15 wGK31 center half_length 7 8 (dec wG15 33 7 * f_center) (dec wGK31 33 15 * f_center) in
  let g := g * half_length in
  let k := k * half_length in
  mkI k (abs (k - g)) 31 true.
(** GaussKronrod.h:344 *)
Inductive gkrule := GK15 | GK21 | GK31.
Definition gk_rule (r : gkrule) : (T -> T) -> T -> T -> ires := match r with GK15 => IntegrateGK15 | GK21 => IntegrateGK21 | GK31 => IntegrateGK31 end.
(** GaussKronrod.h:359-381 IntegrateGKAdaptive; [depth] is max_depth (not positive: 0), std::max(a, b) is (a < b) ? b : a *)
Fixpoint IntegrateGKAdaptive (f : T -> T) (a b tol_abs tol_rel : T) (depth : nat) (rule : gkrule) : ires :=
  let local := gk_rule rule f a b in
  let tol2 := tol_rel * abs (ir_value local) in
  let tolerance := if tol_abs <? tol2 then tol2 else tol_abs in
  if ir_err local <=? tolerance then mkI (ir_value local) (ir_err local) (ir_iters local) true
  else match depth with
  | 0 => mkI (ir_value local) (ir_err local) (ir_iters local) false
  | S depth' =>
    let mid := half * (a + b) in
    let left := IntegrateGKAdaptive f a mid (tol_abs / lit 2) tol_rel depth' rule in
    let right := IntegrateGKAdaptive f mid b (tol_abs / lit 2) tol_rel depth' rule in
    mkI (ir_value left + ir_value right) (ir_err left + ir_err right) (Nat.add (ir_iters left) (ir_iters right)) (ir_conv left && ir_conv right)
  end.

(** Integration1D.h:388-393, 414-433: method selection (GK21 reports the number of evaluations as iterations) *)
Inductive imethod := TRAP | SIMPSON | ROMBERG | GAUSS10 | GAUSS10KRONROD21.
Definition Integrate (maxT maxS maxR : Z) (K : nat) (f : T -> T) (a b : T) (method : imethod) (eps : T) : res ires :=
  match method with
  | TRAP => IntegrateTrap maxT f a b eps
  | SIMPSON => IntegrateSimpson maxS f a b eps
  | ROMBERG => IntegrateRomberg maxR K f a b eps
  | GAUSS10 => Ok (IntegrateGauss10 f a b)
  | GAUSS10KRONROD21 => Ok (IntegrateGK21 f a b)
  end.
End Integ.
Arguments ir_value {T} _. Arguments ir_err {T} _. Arguments ir_iters {T} _. Arguments ir_conv {T} _.
