(** Model of src/MathUtils/BoostFunctions.h.

    Boost is not part of the repository: its functions are arguments of the
    definitions below (except [chebyshev_t], modelled in M_Cheb.v), and
    S_Special.v states what is assumed of them.  The wrappers that only forward
    to one Boost function (Legendre, Factorial, Gamma, Chebyshev, Ei, E1) have
    nothing to model.  Scalars are of one floating-point type; the decimal
    literals are taken at their written value. *)
From Coq Require Import List Arith ZArith Bool.
From Verif Require Import Outcome Num NumFun M_Basics M_Series M_Cheb.
Import ListNotations.

Section Bessel.
Context {T : Type} `{NT : Num T} {V : Type} `{VT : VNum T V}.

(** Lines 28-36, 44-52 and 92-100 (first kind, second kind, Hankel):
    [F order x] is cyl_bessel_j, cyl_neumann or cyl_hankel_1; [vneg] the unary
    minus of the result type. *)
Definition bessel_derivative (vneg : V -> V) (F : T -> T -> V) (order x : T) : V :=
  if neq order (nofZ 0) then vneg (F (nofZ 1) x)
  else vsub (F (order - nofZ 1)%num x) (vmull (order / x)%num (F order x)).
(** Lines 60-68: cyl_bessel_i. *)
Definition bessel_i_derivative (F : T -> T -> V) (order x : T) : V :=
  if neq order (nofZ 0) then F (nofZ 1) x
  else vsub (F (order - nofZ 1)%num x) (vmull (order / x)%num (F order x)).
(** Lines 76-84: cyl_bessel_k. *)
Definition bessel_k_derivative (vneg : V -> V) (F : T -> T -> V) (order x : T) : V :=
  if neq order (nofZ 0) then vneg (F (nofZ 1) x)
  else vsub (vneg (F (order - nofZ 1)%num x)) (vmull (order / x)%num (F order x)).
End Bessel.

Section BesselInt.
Context {T : Type} `{NT : Num T}.
(** The same functions with both template arguments of an integer type (no
    overflow): [order / x] is then the integer division, which truncates, and
    dividing by zero is undefined.  [F order x] is Boost's value for integer
    arguments. *)
Definition int_quot (order x : Z) : outcome T :=
  if (x =? 0)%Z then UB else Ok (nofZ (Z.quot order x)).
Definition bessel_derivative_int (F : Z -> Z -> T) (order x : Z) : outcome T :=
  if (order =? 0)%Z then Ok (nneg (F 1%Z x))
  else let* q := int_quot order x in
       Ok (F (order - 1)%Z x - q * F order x)%num.
Definition bessel_i_derivative_int (F : Z -> Z -> T) (order x : Z) : outcome T :=
  if (order =? 0)%Z then Ok (F 1%Z x)
  else let* q := int_quot order x in
       Ok (F (order - 1)%Z x - q * F order x)%num.
Definition bessel_k_derivative_int (F : Z -> Z -> T) (order x : Z) : outcome T :=
  if (order =? 0)%Z then Ok (nneg (F 1%Z x))
  else let* q := int_quot order x in
       Ok (nneg (F (order - 1)%Z x) - q * F order x)%num.
End BesselInt.

Section Special.
Context {T : Type} `{NT : Num T} `{NF : NumFm T} `{NR : NumTr T}.

(** BoostFunctions.h:126-126, [coef_a]. *)
Definition struve0_a : list T :=
  [nlit 1909859164 1000000000;
   nlit (-1909855001) 1000000000;
   nlit 687514637 1000000000;
   nlit (-126164557) 1000000000;
   nlit 13828813 1000000000;
   nlit (-876918) 1000000000].

(** BoostFunctions.h:133-134, [coef_b]. *)
Definition struve0_b : list T :=
  [nlit 99999906 100000000;
   nlit 47722892 10000000;
   nlit 385542044 100000000;
   nlit 32303607 100000000].

(** BoostFunctions.h:133-134, [coef_c]. *)
Definition struve0_c : list T :=
  [nofZ 1;
   nlit 488331068 100000000;
   nlit 428957333 100000000;
   nlit 52120508 100000000].

(** BoostFunctions.h:157-157, [coef_d]. *)
Definition struve1_d : list T :=
  [nlit 1909859286 1000000000;
   nlit (-1145914713) 1000000000;
   nlit 294656958 1000000000;
   nlit (-42070508) 1000000000;
   nlit 3785727 1000000000;
   nlit (-207183) 1000000000].

(** BoostFunctions.h:164-165, [coef_e]. *)
Definition struve1_e : list T :=
  [nlit 100000004 100000000;
   nlit 392205313 100000000;
   nlit 264893033 100000000;
   nlit 27450895 100000000].

(** BoostFunctions.h:164-165, [coef_f]. *)
Definition struve1_f : list T :=
  [nofZ 1;
   nlit 381095112 100000000;
   nlit 226216956 100000000;
   nlit 10885141 100000000].

(** BoostFunctions.h:246-265, [pj]. *)
Definition ei6_p : list T :=
  [nlit (-41658081333604994241879) 100000000000;
   nlit 1217769813619959467758 100000000000;
   nlit (-25301823984599019348858) 1000000000000;
   nlit 31984354235237738511048 100000000000000;
   nlit (-353778096944311334848) 1000000000000;
   nlit (-3139866086424726586205) 10000000000000000;
   nlit (-14299841572091610380064) 10000000000000000;
   nlit (-14287072500197005777376) 1000000000000000000;
   nlit (-12831220659262000678155) 10000000000000000000;
   nlit (-1296370260247483002859) 100000000000000000000].

(** BoostFunctions.h:246-265, [qj]. *)
Definition ei6_q : list T :=
  [nlit (-17934749837151009723371) 100000000000;
   nlit 98900934262481749439886 1000000000000;
   nlit (-28986272696554495342658) 1000000000000;
   nlit 54229617984472955011862 10000000000000;
   nlit (-70108568774215954065376) 100000000000000;
   nlit 64698830956576428587653 1000000000000000;
   nlit (-42648434812177161405483) 10000000000000000;
   nlit 19418469440759880361415 100000000000000000;
   nlit (-55648470543369082846819) 10000000000000000000;
   nlit 7688671875 100000000].

(** BoostFunctions.h:283-301, [alphaj]. *)
Definition ei12_alpha : list T :=
  [nlit 9981193787537396413219 10000000000000000000000;
   nlit 9565134591978630774217 1000000000000000000000;
   nlit (-3988850730390541057912) 1000000000000000000000;
   nlit 1120011024227297451523 100000000000000000000;
   nlit (-3015761863840593359165) 100000000000000000000;
   nlit 1945603779539281810439 100000000000000000000;
   nlit 1052976392459015155422 100000000000000000000;
   nlit (-242110695698065351155) 10000000000000000000;
   nlit (-2378372882815725244124) 1000000000000000000000;
   nlit (-2645977793077147237806) 1000000000000000000000].

(** BoostFunctions.h:283-301, [betaj]. *)
Definition ei12_beta : list T :=
  [nlit 124988482271244789144 100000000000000000000;
   nlit (-2369210235636181001661) 10000000000000000000;
   nlit 4731097187816050252967 10000000000000000000;
   nlit 2852397548119248700147 100000000000000000000;
   nlit 7608194509086645763123 10000000000000000000;
   nlit (-8791401054875438925029) 1000000000000000000000;
   nlit 3697412299772985940785 10000000000000000000;
   nlit 464418593258328694265 100000000000000000000;
   nlit 1598517957704779356479 10000000000000000000000000].

(** BoostFunctions.h:317-335, [alphaj]. *)
Definition ei24_alpha : list T :=
  [nlit 9999933106160568739091 10000000000000000000000;
   nlit (-1845086232391278674524) 1000000000000000000000;
   nlit 2652575818452799819855 100000000000000000000;
   nlit 2495487730402059440626 100000000000000000000;
   nlit (-3323612579343962284333) 100000000000000000000;
   nlit (-9134835699998742552432) 10000000000000000000000;
   nlit (-2105740799548040450394) 100000000000000000000;
   nlit (-1000641913989284829961) 100000000000000000000;
   nlit (-1860092121726437582253) 100000000000000000000;
   nlit (-1647721172463463140042) 1000000000000000000000].

(** BoostFunctions.h:317-335, [betaj]. *)
Definition ei24_beta : list T :=
  [nlit 1001533852045342697818 1000000000000000000000;
   nlit (-1093556195391091243924) 100000000000000000000;
   nlit 1991004470817742470726 10000000000000000000;
   nlit 1192832423968601006985 1000000000000000000;
   nlit 4429413178337928401161 100000000000000000000;
   nlit 2538819315630708031713 10000000000000000000;
   nlit 5994932325667407355255 100000000000000000000;
   nlit 6403800405352415551324 100000000000000000000;
   nlit 979240359921729029684 10000000000000000000].

(** BoostFunctions.h:351-369, [alphaj]. *)
Definition eiL_alpha : list T :=
  [nlit 100000000000000485503 100000000000000000000;
   nlit (-300000000320981265753) 100000000000000000000;
   nlit (-500006640413131002475) 100000000000000000000;
   nlit (-706810977895029358836) 100000000000000000000;
   nlit (-152856623636929636839) 10000000000000000000;
   nlit (-763147701620253630855) 100000000000000000000;
   nlit (-27979852862430538934) 1000000000000000000;
   nlit (-181949664929868906455) 10000000000000000000;
   nlit (-22312767077763240955) 100000000000000000;
   nlit 17533880126546597239 100000000000000000].

(** BoostFunctions.h:351-369, [betaj]. *)
Definition eiL_beta : list T :=
  [nlit 199999999999048104167 100000000000000000000;
   nlit (-299999894040324959612) 100000000000000000000;
   nlit (-799243595776339741065) 100000000000000000000;
   nlit (-120187763547154743238) 10000000000000000000;
   nlit 704831847180424675988 10000000000000000000;
   nlit 117179220502086455287 1000000000000000000;
   nlit 137790390235747998793 1000000000000000000;
   nlit 397277109100414518365 100000000000000000000;
   nlit 39784597716741472084 1000000000000000].

(** BoostFunctions.h:399-417, [alphaj]. *)
Definition expei_alpha : list T :=
  [nlit 100000000000000485503 100000000000000000000;
   nlit (-300000000320981265753) 100000000000000000000;
   nlit (-500006640413131002475) 100000000000000000000;
   nlit (-706810977895029358836) 100000000000000000000;
   nlit (-152856623636929636839) 10000000000000000000;
   nlit (-763147701620253630855) 100000000000000000000;
   nlit (-27979852862430538934) 1000000000000000000;
   nlit (-181949664929868906455) 10000000000000000000;
   nlit (-22312767077763240955) 100000000000000000;
   nlit 17533880126546597239 100000000000000000].

(** BoostFunctions.h:399-417, [betaj]. *)
Definition expei_beta : list T :=
  [nlit 199999999999048104167 100000000000000000000;
   nlit (-299999894040324959612) 100000000000000000000;
   nlit (-799243595776339741065) 100000000000000000000;
   nlit (-120187763547154743238) 10000000000000000000;
   nlit 704831847180424675988 10000000000000000000;
   nlit 117179220502086455287 1000000000000000000;
   nlit 137790390235747998793 1000000000000000000;
   nlit 397277109100414518365 100000000000000000000;
   nlit 39784597716741472084 1000000000000000].

(** BoostFunctions.h:458-471, [pj]. *)
Definition e1a_p : list T :=
  [nlit (-14815102102575750838086) 100000000000000000;
   nlit 15026059476436982420737 100000000000000000;
   nlit 89904972007457256553251 1000000000000000000;
   nlit 15924175980637303639884 1000000000000000000;
   nlit 21500672908092918123209 10000000000000000000;
   nlit 11669552669734461083368 100000000000000000000;
   nlit 5019678518543984379102 1000000000000000000000].

(** BoostFunctions.h:458-471, [qj]. *)
Definition e1a_q : list T :=
  [nlit 25666493484897117319268 100000000000000000;
   nlit 18434070063353677359298 100000000000000000;
   nlit 52440529172056355429883 1000000000000000000;
   nlit 81258035174768735759866 10000000000000000000;
   nlit 75043163907103936624165 100000000000000000000;
   nlit 40205465640027706061433 1000000000000000000000;
   nofZ 1].

(** BoostFunctions.h:484-501, [pj]. *)
Definition e1b_p : list T :=
  [nlit 1737331760720576030932 100000000000000000000000000000;
   nlit 9999989642347613068437 10000000000000000000000;
   nlit 1487967702840464066613 100000000000000000000;
   nlit 7633628873405946890896 100000000000000000000;
   nlit 1698106763764238382705 10000000000000000000;
   nlit 1700632978311516129328 10000000000000000000;
   nlit 7246689782858597021199 100000000000000000000;
   nlit 110732662778631743809 10000000000000000000;
   nlit 3828573121022477169108 10000000000000000000000].

(** BoostFunctions.h:484-501, [qj]. *)
Definition e1b_q : list T :=
  [nofZ 1;
   nlit 1587964570758947927903 100000000000000000000;
   nlit 9021658450529372642314 100000000000000000000;
   nlit 2342573504717625153053 10000000000000000000;
   nlit 2953136335677908517423 10000000000000000000;
   nlit 1775728186717289799677 10000000000000000000;
   nlit 4662179610356861756812 100000000000000000000;
   nlit 434483633550928208336 100000000000000000000;
   nlit 8258160008564488034698 100000000000000000000000].

(** BoostFunctions.h:519-538, [pj]. *)
Definition e1c_p : list T :=
  [nlit (-99999999999999999087819) 100000000000000000000000;
   nlit (-52199632588522572481039) 1000000000000000000000;
   nlit (-10611777263550331766871) 10000000000000000000;
   nlit (-10816852399095915622498) 1000000000000000000;
   nlit (-59346841538837119172356) 1000000000000000000;
   nlit (-17503273087497081314708) 100000000000000000;
   nlit (-26181454937205639647381) 100000000000000000;
   nlit (-17283375773777593926828) 100000000000000000;
   nlit (-35846198743996904308695) 1000000000000000000;
   nlit (-13276881505637444622987) 100000000000000000000].

(** BoostFunctions.h:519-538, [qj]. *)
Definition e1c_q : list T :=
  [nofZ 1;
   nlit 54199632588522559414924 1000000000000000000000;
   nlit 11635769915320848035459 10000000000000000000;
   nlit 12842808586627297365998 1000000000000000000;
   nlit 79231787645279043698718 1000000000000000000;
   nlit 27858134710520842139357 100000000000000000;
   nlit 54616842050691155735758 100000000000000000;
   nlit 5590375621002286400338 10000000000000000;
   nlit 55989762083608489777411 100000000000000000;
   nlit 39147856245556345627078 1000000000000000000].

(** Lines 127-129 and 158-160: j runs over 1..6; [e j] is the exponent. *)
Fixpoint struve_poly (coef : list T) (arg : T) (e : nat -> Z) (j n : nat) (acc : T) : outcome T :=
  match n with
  | 0 => Ok acc
  | S n' => let* c := vat coef (j - 1) in
            struve_poly coef arg e (S j) n' (acc + c * npow arg (nofZ (e j)))%num
  end.
(** Lines 135-140 and 166-171: j runs over 0..3. *)
Fixpoint struve_frac (cn cd : list T) (arg : T) (j n : nat) (num den : T) : outcome (T * T) :=
  match n with
  | 0 => Ok (num, den)
  | S n' => let* b := vat cn j in
            let* c := vat cd j in
            let p := npow arg (nofZ (2 * Z.of_nat j)) in
            struve_frac cn cd arg (S j) n' (num + b * p)%num (den + c * p)%num
  end.
(** Lines 120-149; [Y] is cyl_neumann. *)
Definition Struve_zero_order (Y : T -> T -> T) (x : T) : outcome T :=
  if nle (nofZ 0) x && nle x (nofZ 3) then
    struve_poly struve0_a (x / nofZ 3)%num (fun j => 2 * Z.of_nat j - 1)%Z 1 6 (nofZ 0)
  else if nlt (nofZ 3) x then
    let* nd := struve_frac struve0_b struve0_c (nofZ 3 / x)%num 0 4 (nofZ 0) (nofZ 0) in
    Ok (Y (nofZ 0) x + nofZ 2 * fst nd / (npi * x * snd nd))%num
  else Exit 0.
(** Lines 151-180. *)
Definition Struve_first_order (Y : T -> T -> T) (x : T) : outcome T :=
  if nle (nofZ 0) x && nle x (nofZ 3) then
    struve_poly struve1_d (x / nofZ 3)%num (fun j => 2 * Z.of_nat j)%Z 1 6 (nofZ 0)
  else if nlt (nofZ 3) x then
    let* nd := struve_frac struve1_e struve1_f (nofZ 3 / x)%num 0 4 (nofZ 0) (nofZ 0) in
    Ok (Y (nofZ 1) x + nofZ 2 * fst nd / (npi * snd nd))%num
  else Exit 0.
(** Lines 182-186; MU_2_PI is 1 / (M_PI / 2) (Constants.h:46-47). *)
Definition Struve_zero_order_derivative (Y : T -> T -> T) (x : T) : outcome T :=
  let* s := Struve_first_order Y x in
  Ok (nofZ 1 / (npi / nofZ 2) - s)%num.

(** Lines 236 and 449: IsClose(x, 0.) || x < 0., with the default tolerances
    of Check.h:14-16. *)
Definition rejected (x : T) : bool :=
  IsClose x (nofZ 0) (nlit 1 100000) (nlit 1 100000000) || nlt x (nofZ 0).

(** Lines 305-308, 339-342, 373-376, 421-424: the loop of the continued
    fraction, j going down from [j]. *)
Fixpoint cf_loop (alpha beta : list T) (x : T) (j : nat) (fraction : T) : outcome T :=
  match j with
  | 0 => Ok fraction
  | S k => let* b := vat beta k in
           let* a := vat alpha j in
           cf_loop alpha beta x k (b / (a + x + fraction))%num
  end.
(** with the first term (lines 309, 343, 377, 425). *)
Definition cf (alpha beta : list T) (x : T) : outcome T :=
  let* fraction := cf_loop alpha beta x 9 (nofZ 0) in
  let* a0 := vat alpha 0 in
  Ok (fraction + a0)%num.

(** Lines 272-275: j runs over 1..9. *)
Fixpoint cheb_frac (p q : list T) (t : T) (j n : nat) (num den : T) : outcome (T * T) :=
  match n with
  | 0 => Ok (num, den)
  | S n' => let* pj := vat p j in
            let* qj := vat q j in
            cheb_frac p q t (S j) n' (num + pj * chebyshev_shifted j t)%num (den + qj * chebyshev_shifted j t)%num
  end.
(** Line 245. *)
Definition ei_x0 : T := nlit 37250741078136663446199186658 100000000000000000000000000000.

(** Lines 226-384.  The four size assertions hold and are left out. *)
Definition Ei_approximation (x : T) : outcome T :=
  if rejected x then Exit 0
  else if nlt (nofZ 0) x && nlt x (nofZ 6) then
    let t := (x / nofZ 6)%num in
    let* p0 := vat ei6_p 0 in
    let* q0 := vat ei6_q 0 in
    let* nd := cheb_frac ei6_p ei6_q t 1 9
                 (nlit 1 2 * p0 * chebyshev_shifted 0 t)%num (nlit 1 2 * q0 * chebyshev_shifted 0 t)%num in
    Ok (nofZ 0 + nlog (x / ei_x0) + (x - ei_x0) * (fst nd / snd nd))%num
  else if nle (nofZ 6) x && nlt x (nofZ 12) then
    let* fraction := cf ei12_alpha ei12_beta x in
    Ok ((nexp x / x) * fraction)%num
  else if nle (nofZ 12) x && nlt x (nofZ 24) then
    let* fraction := cf ei24_alpha ei24_beta x in
    Ok ((nexp x / x) * fraction)%num
  else
    let* fraction := cf eiL_alpha eiL_beta x in
    Ok ((nexp x / x) * (nofZ 1 + (nofZ 1 / x) * fraction))%num.

(** Lines 386-431; [Ei] is boost::math::expint. *)
Definition expEi (Ei : T -> T) (x : T) : outcome T :=
  if nlt x (nofZ 24) then Ok (nexp (nneg x) * Ei x)%num
  else
    let* fraction := cf expei_alpha expei_beta x in
    Ok ((nofZ 1 / x) * (nofZ 1 + (nofZ 1 / x) * fraction))%num.

(** Lines 507-511 and 544-548: j runs over 0..n. *)
Fixpoint inv_frac (p q : list T) (x : T) (j n : nat) (xn num den : T) : outcome (T * T) :=
  match n with
  | 0 => Ok (num, den)
  | S n' => let* pj := vat p j in
            let* qj := vat q j in
            inv_frac p q x (S j) n' (xn / x)%num (num + pj * xn)%num (den + qj * xn)%num
  end.

(** Lines 439-555. *)
Definition E1_approximation (x : T) : outcome T :=
  if rejected x then Exit 0
  else if nlt (nofZ 0) x && nlt x (nofZ 1) then
    let* num := horner e1a_p x in
    let* den := horner e1a_q x in
    Ok (nneg (nlog x) + num / den)%num
  else if nle (nofZ 1) x && nlt x (nofZ 4) then
    let* nd := inv_frac e1b_p e1b_q x 0 9 (nofZ 1) (nofZ 0) (nofZ 0) in
    Ok (nexp (nneg x) * (fst nd / snd nd))%num
  else
    let* nd := inv_frac e1c_p e1c_q x 0 10 (nofZ 1) (nofZ 0) (nofZ 0) in
    Ok ((nexp (nneg x) / x) * (nofZ 1 + (nofZ 1 / x) * fst nd / snd nd))%num.
End Special.
