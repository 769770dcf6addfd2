(** * Pratt: primality of large numbers by certificate

    Number theory only; models no line of /repo.  Used by PropsCurve.v for the order of the
    scalar field of BLS12-381. *)

From Coq Require Import NArith.
From mathcomp Require Import all_ssreflect all_fingroup all_algebra all_solvable all_field zify.

Set Implicit Arguments.
Unset Strict Implicit.
Unset Printing Implicit Defensive.

Local Open Scope nat_scope.

(** ** Lucas' test *)

(** If [a^(n-1) = 1] modulo [n] and [a^((n-1)/p) - 1] is prime to [n] for every prime [p]
    that divides [n - 1], then [n] is prime. *)
Lemma lucas_prime (n a : nat) : 1 < n -> a ^ n.-1 = 1 %[mod n] ->
  (forall p, prime p -> p %| n.-1 -> coprime (a ^ (n.-1 %/ p) %% n + n.-1) n) -> prime n.
Proof.
move=> n1 an co; pose p := pdiv n.
have pp : prime p by apply: pdiv_prime.
have pn : p %| n by apply: pdiv_dvd.
have n0 : 0 < n.-1 by case: (n) n1 => [|[]].
have toF k : ((a ^ k)%:R == 1 :> 'F_p)%R = (a ^ k == 1 %[mod p]).
  by rewrite -[1%R]/(1%:R)%R -(inj_eq val_inj) /= !val_Fp_nat // Fp_cast.
have ap : ((a%:R : 'F_p) ^+ n.-1 == 1)%R.
  rewrite -GRing.natrX toF; apply/eqP.
  by rewrite -(modn_dvdm (a ^ n.-1) pn) an modn_dvdm.
have [o op on] := prim_order_exists n0 (eqP ap).
have divo k : ((a%:R : 'F_p) ^+ k == 1)%R = (o %| k) by rewrite (prim_order_dvd op).
have o1 : o = n.-1.
  apply/eqP; apply: contraT => ne.
  have [m em] := dvdnP on.
  have m1 : 1 < m.
    by case: m em => [|[|m]] // em; [rewrite em in n0 | rewrite em mul1n eqxx in ne].
  have pm := pdiv_prime m1; have dm := pdiv_dvd m.
  have dn : pdiv m %| n.-1 by rewrite em dvdn_mulr.
  have : o %| n.-1 %/ pdiv m by rewrite em mulnC -muln_divA // dvdn_mulr.
  rewrite -divo -GRing.natrX toF => /eqP e1.
  have := co _ pm dn; rewrite /coprime => /eqP g1.
  have : p %| gcdn (a ^ (n.-1 %/ pdiv m) %% n + n.-1) n.
    rewrite dvdn_gcd pn andbT /dvdn -modnDml modn_dvdm // e1 modnDml add1n prednK ?(ltnW n1) //.
  by rewrite g1 dvdn1; case: (p) pp => [|[]].
have ow : o %| p.-1.
  rewrite -divo.
  have a0 : (a%:R : 'F_p)%R != 0%R.
    apply/eqP => e; move: ap; rewrite e GRing.expr0n.
    by case: (n.-1) n0 => //= k _; rewrite eq_sym GRing.oner_eq0.
  have gen (x : 'F_p) k : (x != 0 -> x ^+ k = x -> (0 < k)%N -> x ^+ k.-1 == 1)%R.
    case: k => // k x0; rewrite GRing.exprS -[X in _ = X]GRing.mulr1 => /(GRing.mulfI x0) -> _.
    exact: eqxx.
  by apply: gen => //; [rewrite -[X in (_ ^+ X)%R]card_Fp // expf_card | apply: prime_gt0].
have : n <= p.
  have p1 := prime_gt1 pp.
  by have := dvdn_leq _ ow; rewrite o1; lia.
have : p <= n by apply: dvdn_leq => //; apply: ltnW.
by move=> h1 h2; rewrite (_ : n = p) //; apply/eqP; rewrite eqn_leq h1 h2.
Qed.

(** ** Binary arithmetic *)

(** [a^m mod n] by repeated squaring. *)
Fixpoint powm (n a : N) (m : positive) : N :=
  match m with
  | xH => (a mod n)%num
  | xO m' => let x := powm n a m' in ((x * x) mod n)%num
  | xI m' => let x := powm n a m' in ((((x * x) mod n) * a) mod n)%num
  end.

Lemma pow_double (a k : N) : (a ^ k * a ^ k = a ^ (2 * k))%num.
Proof. by rewrite -N.pow_add_r; congr N.pow; lia. Qed.

Lemma powmE n a m : n <> 0%num -> powm n a m = (a ^ Npos m mod n)%num.
Proof.
move=> n0; elim: m => [m IH|m IH|]; rewrite [LHS]/=; last by rewrite N.pow_1_r.
  rewrite IH -N.mul_mod // N.mul_mod_idemp_l // pow_double.
  by rewrite -[Npos m~1]/(2 * Npos m + 1)%num N.pow_add_r N.pow_1_r.
by rewrite IH -N.mul_mod // pow_double.
Qed.

Lemma to_natD (x y : N) : N.to_nat (x + y) = N.to_nat x + N.to_nat y.
Proof. exact: N2Nat.inj_add. Qed.

Lemma to_natM (x y : N) : N.to_nat (x * y) = N.to_nat x * N.to_nat y.
Proof. exact: N2Nat.inj_mul. Qed.

Lemma to_nat_mod (a n : N) : n <> 0%num -> N.to_nat (a mod n) = N.to_nat a %% N.to_nat n.
Proof.
move=> n0; have l : (a mod n < n)%num by apply: N.mod_lt.
rewrite [in RHS](N.div_mod a n n0) to_natD to_natM mulnC modnMDl modn_small //; lia.
Qed.

Lemma to_nat_div (a n : N) : n <> 0%num -> N.to_nat (a / n) = N.to_nat a %/ N.to_nat n.
Proof.
move=> n0; have l : (a mod n < n)%num by apply: N.mod_lt.
rewrite [in RHS](N.div_mod a n n0) to_natD to_natM mulnC divnMDl; last by lia.
by rewrite divn_small ?addn0 //; lia.
Qed.

Lemma to_nat_pow (a n : N) : N.to_nat (a ^ n) = N.to_nat a ^ N.to_nat n.
Proof.
elim/N.peano_ind: n => [|n IH]; first by rewrite N.pow_0_r.
by rewrite N.pow_succ_r' N2Nat.inj_succ expnS -IH; lia.
Qed.

Lemma dvd_to_nat (d n : N) : d <> 0%num -> (N.to_nat d %| N.to_nat n) = (n mod d =? 0)%num.
Proof.
move=> d0; rewrite /dvdn -to_nat_mod //; apply/eqP/N.eqb_spec; lia.
Qed.

(** ** Small primes by trial division *)

Fixpoint no_divisor (n d : N) (fuel : nat) : bool :=
  if fuel is k.+1 then ~~ (n mod d =? 0)%num && no_divisor n (d + 1)%num k else true.

Lemma no_divisorP n d k (e : N) : no_divisor n d k -> (d <= e < d + N.of_nat k)%num ->
  (n mod e =? 0)%num = false.
Proof.
elim: k d => [|k IH] d /=; first by lia.
case/andP=> /negbTE nd nk le.
case: (N.eqb_spec d e) => [<-//|ne]; apply: (IH (d + 1)%num) => //; lia.
Qed.

(** Trial division by [2 .. k+1]; decides for [n < (k + 2)^2]. *)
Definition small_prime (n : N) : bool :=
  let k := N.to_nat (N.sqrt n) in
  (1 <? n)%num && no_divisor n 2 k.-1.

Lemma small_primeP n : small_prime n -> prime (N.to_nat n).
Proof.
case/andP=> /N.ltb_lt n1 nd; have n1' : 1 < N.to_nat n by lia.
apply: ltn_pdiv2_prime; first by lia.
rewrite ltnNge; apply/negP => le.
have pd : 1 < pdiv (N.to_nat n) by apply/prime_gt1/pdiv_prime.
pose e := N.of_nat (pdiv (N.to_nat n)).
have ee : N.to_nat e = pdiv (N.to_nat n) by rewrite /e Nat2N.id.
have es : (e * e <= n)%num by move: le; rewrite -mulnn -ee; lia.
have le2 : (e <= N.sqrt n)%num by apply/N.sqrt_le_square.
have := @no_divisorP n 2 _ e nd; rewrite -dvd_to_nat; last by lia.
by rewrite ee pdiv_dvd => h; have := h ltac:(lia).
Qed.

(** ** Certificates *)

(** A list of primes with exponents. *)
Definition product (fs : seq (N * N)) : N := foldr (fun pe acc => (pe.1 ^ pe.2 * acc)%num) 1%num fs.

Lemma prime_factor (fs : seq (N * N)) (p : nat) :
  (forall f, f \in [seq f.1 | f <- fs] -> prime (N.to_nat f)) ->
  prime p -> p %| N.to_nat (product fs) -> exists2 f, f \in [seq f.1 | f <- fs] & p = N.to_nat f.
Proof.
move=> + pp; elim: fs => [|[f e] fs IH] pf /=; first by rewrite dvdn1; case: p pp => [|[]].
rewrite to_natM to_nat_pow Euclid_dvdM // => /orP[|/IH[]].
- rewrite Euclid_dvdX // => /andP[d _]; exists f; first by rewrite inE eqxx.
  by apply/eqP; move: d; rewrite dvdn_prime2 //; apply: pf; rewrite inE eqxx.
- by move=> g gi; apply: pf; rewrite inE gi orbT.
- by move=> g gi ->; exists g => //; rewrite inE gi orbT.
Qed.

(** [a] and the factorisation of [n - 1]. *)
Definition lucas_check (n a : N) (fs : seq (N * N)) : bool :=
  [&& (1 <? n)%num, (n - 1 =? product fs)%num,
      (if (n - 1)%num is Npos m then powm n a m =? 1 else false)%num
    & all (fun f => if ((n - 1) / f)%num is Npos m then N.gcd (powm n a m + (n - 1)) n =? 1
                    else false)%num [seq f.1 | f <- fs]].

Theorem lucas_checkP n a fs :
  (forall f, f \in [seq f.1 | f <- fs] -> prime (N.to_nat f)) ->
  lucas_check n a fs -> prime (N.to_nat n).
Proof.
move=> pf /and4P[/N.ltb_lt n1 /N.eqb_spec np an co].
have n0 : n <> 0%num by lia.
have en : (N.to_nat n).-1 = N.to_nat (n - 1) by lia.
apply: (@lucas_prime _ (N.to_nat a)); first by lia.
  move: an; rewrite en; case: (n - 1)%num => // m /N.eqb_spec; rewrite powmE // => am.
  have := congr1 N.to_nat am; rewrite to_nat_mod // to_nat_pow => ->.
  by rewrite modn_small //; lia.
move=> p pp; rewrite en np => /(prime_factor pf pp)[f fi ->]; rewrite -np.
have f0 : f <> 0%num by move=> e; have := pf _ fi; rewrite e.
have -> : N.to_nat (n - 1) %/ N.to_nat f = N.to_nat ((n - 1) / f) by rewrite to_nat_div.
move/allP: co => /(_ f fi); case: ((n - 1) / f)%num => // m /N.eqb_spec; rewrite powmE // => g1.
rewrite -to_nat_pow -to_nat_mod // -to_natD /coprime.
have gn x y : gcdn (N.to_nat x) (N.to_nat y) = N.to_nat (N.gcd x y).
  case: (N.eq_dec x 0) => [->|x0]; first by rewrite N.gcd_0_l gcd0n.
  apply/eqP; rewrite eqn_dvd; apply/andP; split; last first.
    rewrite dvdn_gcd; case: (N.eq_dec (N.gcd x y) 0) => z.
      by have [-> ->] := (N.gcd_eq_0_l _ _ z, N.gcd_eq_0_r _ _ z).
    rewrite !dvd_to_nat //; apply/andP; split; apply/N.eqb_spec; apply/N.mod_divide => //;
      [exact: N.gcd_divide_l|exact: N.gcd_divide_r].
  have [u [v b]] : exists u v, (u * x = v * y + N.gcd x y)%num.
    by have [u [v]] := N.gcd_bezout_pos x y ltac:(lia); exists u, v; lia.
  have := dvdn_gcdl (N.to_nat x) (N.to_nat y); have := dvdn_gcdr (N.to_nat x) (N.to_nat y).
  set g := gcdn _ _ => gy gx.
  have : g %| N.to_nat (v * y + N.gcd x y) by rewrite -b to_natM dvdn_mull.
  by rewrite to_natD to_natM dvdn_addr // dvdn_mull.
by rewrite gn g1.
Qed.
