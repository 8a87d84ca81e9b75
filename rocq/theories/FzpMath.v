(** * Polynomials over the field of p elements: Fermat's theorem for irreducible polynomials, and the square-free
    decomposition through multiplicities of roots (used for C49). *)
From mathcomp Require Import all_ssreflect all_algebra all_field polyorder.
Import GRing.Theory.
Set Implicit Arguments.
Unset Strict Implicit.
Local Open Scope ring_scope.

Section Fermat.
Variable F : finFieldType.
Lemma fermat_irr (q : {poly F}) : irreducible_poly q -> q %| 'X^(#|F| ^ (size q).-1) - 'X.
Proof.
move=> irr. have [L dimL [z zroot _]] := irredp_FAdjoin irr.
set P := 'X^_ - 'X.
have zP : root (map_poly (in_alg L) P) z.
  have := Fermat's_little_theorem {:L}%AS z. rewrite memvf => /esym/eqP H.
  by rewrite /P rmorphB /= map_polyXn map_polyX rootE !hornerE hornerXn -dimL H subrr.
apply/negPn/negP => nd.
have cop : coprimep q P.
  rewrite /coprimep. have := irr.2 (gcdp q P). rewrite dvdp_gcdl.
  case: (size (gcdp q P) =P 1%N) => // _ /(_ isT isT) E.
  by rewrite -(eqp_dvdl P E) dvdp_gcdr in nd.
have := coprimep_root (p := map_poly (in_alg L) q) (q := map_poly (in_alg L) P) (x := z).
rewrite coprimep_map => /(_ cop zroot). by rewrite (eqP zP) eqxx.
Qed.
End Fermat.

(** ** p-th roots *)
Section Pth.
Variable F : finFieldType.
Let p := #|F|.
Hypothesis charp : p \in [char F].
Lemma expFp (a : F) : a ^+ p = a. Proof. exact: expf_card. Qed.
Lemma p_prime : prime p. Proof. by case/andP: charp. Qed.
Lemma p_gt0 : (0 < p)%N. Proof. exact: prime_gt0 p_prime. Qed.
Lemma char_pol : p \in [char {poly F}].
Proof. by rewrite (char_lalg [lalgType F of {poly F}]). Qed.
(** the polynomial whose i-th coefficient is the (p*i)-th one *)
Definition extract (f : {poly F}) : {poly F} := \poly_(i < size f) f`_(p * i).
Lemma coef_extract (f : {poly F}) i : (extract f)`_i = f`_(p * i).
Proof.
rewrite coef_poly. case: ltnP => // H. rewrite nth_default //. apply: leq_trans H _. by rewrite leq_pmull // p_gt0.
Qed.
Lemma deriv0_coef (f : {poly F}) i : f^`() = 0 -> ~~ (p %| i)%N -> f`_i = 0.
Proof.
case: i => [|i] D; first by rewrite dvdn0.
move=> N. have := congr1 (fun g : {poly F} => g`_i) D. rewrite coef_deriv coef0 -mulr_natr => /eqP.
rewrite mulf_eq0 => /orP[/eqP//|]. by rewrite -(dvdn_charf charp) (negbTE N).
Qed.
Lemma extract_comp (f : {poly F}) : f^`() = 0 -> f = \sum_(i < size f) f`_(p * i) *: 'X^(p * i).
Proof.
move=> D. apply/polyP => k. rewrite coef_sum.
case: (boolP (p %| k)%N) => [/dvdnP[j ->]|N].
- case: (ltnP j (size f)) => H.
  + rewrite (bigD1 (Ordinal H)) //= coefZ coefXn [(j * p)%N]mulnC eqxx mulr1 big1 ?addr0 // => i Hi.
    rewrite coefZ coefXn eqn_pmul2l ?p_gt0 //. case: eqP => [E|_]; last by rewrite mulr0.
    case/negP: Hi. apply/eqP/val_inj. by [].
  + rewrite nth_default; last by apply: leq_trans H _; rewrite leq_pmulr // p_gt0.
    rewrite big1 // => i _. rewrite coefZ coefXn [(j * p)%N]mulnC eqn_pmul2l ?p_gt0 //. case: eqP => [E|_]; last by rewrite mulr0.
    have := ltn_ord i. by rewrite -E ltnNge H.
- rewrite deriv0_coef // big1 // => i _. rewrite coefZ coefXn. case: eqP => [E|_]; last by rewrite mulr0.
  by rewrite E dvdn_mulr in N.
Qed.
Lemma extract_pow (f : {poly F}) : f^`() = 0 -> f = extract f ^+ p.
Proof.
move=> D. rewrite {1}(extract_comp D) /extract poly_def.
have FA : forall g : {poly F}, g ^+ p = Frobenius_aut char_pol g by [].
rewrite FA rmorph_sum /=. apply: eq_bigr => i _.
by rewrite -!FA exprZn -exprM expFp mulnC.
Qed.
Lemma deriv_pow (g : {poly F}) k : (g ^+ (p * k))^`() = 0.
Proof.
rewrite deriv_exp. rewrite -mulr_natr natrM (charf0 char_pol) mul0r mulr0 //.
Qed.
End Pth.

(** ** Multiplicities of the roots in an algebraically closed extension *)
Section Mult.
Variable F : finFieldType.
Let p := #|F|.
Hypothesis charp : p \in [char F].
Variable L : closedFieldType.
Variable iota : {rmorphism F -> L}.
Notation "f ^^" := (map_poly iota f) (at level 2).
Definition m (f : {poly F}) (x : L) : nat := \mu_x (f ^^).
Lemma up_neq0 (f : {poly F}) : (f ^^ != 0) = (f != 0).
Proof. by rewrite map_poly_eq0. Qed.
Lemma m_mul (f g : {poly F}) x : f != 0 -> g != 0 -> m (f * g) x = (m f x + m g x)%N.
Proof. move=> f0 g0. by rewrite /m rmorphM mu_mul // mulf_neq0 // up_neq0. Qed.
Lemma m_exp (f : {poly F}) k x : m (f ^+ k) x = (m f x * k)%N.
Proof. by rewrite /m rmorphX mu_exp. Qed.
Lemma m_dvd (f g : {poly F}) x : g != 0 -> f %| g -> (m f x <= m g x)%N.
Proof.
move=> g0 fg. rewrite /m -root_le_mu ?up_neq0 //. apply: dvdp_trans (root_mu _ _) _. by rewrite dvdp_map.
Qed.
Lemma m_eqp (f g : {poly F}) x : f != 0 -> f %= g -> m f x = m g x.
Proof.
move=> f0 E. have g0 : g != 0 by apply: contraTneq E => ->; rewrite eqp0. case/andP: E => A B.
by apply/eqP; rewrite eqn_leq !m_dvd.
Qed.
Lemma m_gcd (f g : {poly F}) x : f != 0 -> g != 0 -> m (gcdp f g) x = minn (m f x) (m g x).
Proof.
move=> f0 g0. have d0 : gcdp f g != 0 by rewrite gcdp_eq0 negb_and f0.
apply/eqP. rewrite eqn_leq leq_min !m_dvd ?dvdp_gcdl ?dvdp_gcdr //=.
rewrite /m -root_le_mu ?up_neq0 // gcdp_map dvdp_gcd !root_le_mu ?up_neq0 //. by rewrite geq_minl geq_minr.
Qed.
Lemma m_root (f : {poly F}) x : f != 0 -> (0 < m f x)%N = root f^^ x.
Proof. move=> f0. by rewrite /m mu_gt0 ?up_neq0. Qed.
Lemma m_const (f : {poly F}) : f != 0 -> reflect (forall x, m f x = 0%N) (size f == 1%N).
Proof.
move=> f0. apply: (iffP idP).
- move=> S x. have /size_poly1P[c c0 E] := S. by rewrite /m E map_polyC mu_polyC.
- move=> H. rewrite -(size_map_poly iota f). apply/negPn/negP => /closed_rootP [x].
  by rewrite -m_root // H.
Qed.
Lemma m_coprime (f g : {poly F}) : f != 0 -> g != 0 -> (forall x, (0 < m f x)%N -> (0 < m g x)%N -> False) -> coprimep f g.
Proof.
move=> f0 g0 H. rewrite /coprimep. apply/m_const; first by rewrite gcdp_eq0 negb_and f0.
move=> x. rewrite m_gcd //. apply/eqP. rewrite -leqn0 geq_min !leqn0. case: (posnP (m f x)) => // A. case: (posnP (m g x)) => // B. by case: (H x).
Qed.
Lemma m_coprime_inv (f g : {poly F}) x : f != 0 -> g != 0 -> coprimep f g -> (0 < m f x)%N -> m g x = 0%N.
Proof.
move=> f0 g0 C A. have : m (gcdp f g) x = 0%N.
  move: x {A}. apply/m_const; first by rewrite gcdp_eq0 negb_and f0. exact: C.
rewrite m_gcd // => /eqP. rewrite -leqn0 geq_min !leqn0 eqn0Ngt A /=. by move/eqP.
Qed.
Lemma m_div (f g : {poly F}) x : f != 0 -> g %| f -> m (f %/ g) x = (m f x - m g x)%N.
Proof.
move=> f0 D. have E := divpK D. have g0 : g != 0 by apply: contraNneq f0 => g0; move: D; rewrite g0 dvd0p.
have q0 : f %/ g != 0 by apply: contraNneq f0 => q0; rewrite -E q0 mul0r.
by rewrite -{2}E m_mul // addnK.
Qed.
Lemma m_deriv (f : {poly F}) x : f != 0 -> f^`() != 0 ->
  m (gcdp f f^`()) x = (if (p %| m f x)%N then m f x else (m f x).-1).
Proof.
move=> f0 d0. rewrite m_gcd //. have F0 : f^^ != 0 by rewrite up_neq0. have D0 : (f^`())^^ != 0 by rewrite up_neq0.
rewrite /m -deriv_map in D0 *. set e := \mu_x (f^^).
have [g gx E] := mu_spec x F0. rewrite -/e in E.
have ED : (f^^)^`() = g^`() * ('X - x%:P) ^+ e + g * (('X - x%:P) ^+ e.-1 *+ e).
  by rewrite {1}E derivM deriv_exp derivXsubC mul1r.
have charL : p \in [char {poly L}].
  rewrite (char_lalg [lalgType L of {poly L}]). by rewrite (fmorph_char iota).
case: ifP => pe.
- apply/minn_idPl. rewrite -root_le_mu // ED.
  have -> : (('X - x%:P) ^+ e.-1 *+ e : {poly L}) = 0.
    by rewrite -mulr_natr; move: pe; rewrite (dvdn_charf charL) => /eqP->; rewrite mulr0.
  by rewrite mulr0 addr0 dvdp_mull.
- case e0 : e => [|k]; first by rewrite e0 dvdn0 in pe.
  rewrite -pred_Sn. have Emu : \mu_x ((f^^)^`()) = k.
    have Eq : (f^^)^`() = (g^`() * ('X - x%:P) + g *+ k.+1) * ('X - x%:P) ^+ k.
      by rewrite ED e0 mulrDl exprS mulrA -pred_Sn mulrnAr mulrnAl.
    rewrite Eq cofactor_XsubC_mu // rootE hornerD hornerM hornerXsubC subrr mulr0 add0r.
    rewrite hornerMn -mulr_natr mulf_neq0 //. 
    move: pe. rewrite e0. by rewrite (@dvdn_charf L p) => [->|]; last by rewrite (fmorph_char iota).
  rewrite Emu. apply/minn_idPr. by [].
Qed.
Lemma deriv0_m (c : {poly F}) : c != 0 -> (forall x, p %| m c x)%N -> c^`() = 0.
Proof.
move=> c0 H. apply/eqP/negPn/negP => d0. have G0 : gcdp c c^`() != 0 by rewrite gcdp_eq0 negb_and c0.
have D : c %| gcdp c c^`().
  have Dg := dvdp_gcdl c c^`(). have q0 : c %/ gcdp c c^`() != 0 by rewrite dvdp_div_eq0.
  have /size_poly1P[a a0 Ea] : size (c %/ gcdp c c^`()) == 1%N.
    apply/(m_const q0) => x. by rewrite m_div // m_deriv // H subnn.
  have E := divpK Dg. rewrite Ea mul_polyC in E. by rewrite -{1}E dvdpZl.
have := dvdp_leq d0 (dvdp_trans D (dvdp_gcdr _ _)). have := lt_size_deriv c0. by rewrite ltnNge => /negbTE ->.
Qed.
Lemma m_sep (f : {poly F}) : f != 0 -> (forall x, m f x <= 1)%N -> separable_poly f.
Proof.
move=> f0 H. rewrite /separable_poly. case: (eqVneq f^`() 0) => [d0|d0].
- rewrite d0 coprimep0 -size_poly_eq1. apply/m_const => // x.
  have E := extract_pow charp d0. have := H x. rewrite {1}E m_exp. have := prime_gt1 (p_prime charp). rewrite -/p.
  rewrite {2}E m_exp. case: (m (extract f) x) => [|k] //. rewrite mulSn. by case: p => [|[|q]].
- rewrite /coprimep. apply/m_const => [|x]; first by rewrite gcdp_eq0 negb_and f0.
  rewrite m_deriv //. have := H x. case: (m f x) => [|[|k]] // _; first by rewrite if_same.
  rewrite dvdn1. by have := prime_gt1 (p_prime charp); rewrite -/p; case: p => [|[|q]].
Qed.
Lemma sep_m (f : {poly F}) x : separable_poly f -> (m f x <= 1)%N.
Proof.
move=> S. have f0 := separable_poly_neq0 S. rewrite leqNgt. apply/negP => H.
have S' : separable_poly f^^ by rewrite separable_map.
have := @separable_nosquare _ f^^ ('X - x%:P) 2 S' isT. rewrite size_XsubC => /(_ isT). by rewrite root_le_mu ?up_neq0 // H.
Qed.

(** *** The loop of the square-free decomposition *)
Definition sq_inv (f : {poly F}) (i : nat) (w c : {poly F}) : Prop :=
  [/\ w != 0, c != 0, (forall x, m w x = ((i <= m f x) && ~~ (p %| m f x))%N :> nat) &
      forall x, m c x = (if (p %| m f x)%N then m f x else (m f x - i)%N)].
Lemma sq_inv_start f : f != 0 -> f^`() != 0 -> forall w c, c %= gcdp f f^`() -> f = w * c -> sq_inv f 1 w c.
Proof.
move=> f0 d0 w c Ec Ef. have /andP[w0 c0] : (w != 0) && (c != 0) by rewrite -negb_or -mulf_eq0 -Ef.
have mc x : m c x = (if (p %| m f x)%N then m f x else (m f x - 1)%N).
  by rewrite (m_eqp _ _ Ec) // m_deriv // subn1.
split=> // x. have : m f x = (m w x + m c x)%N by rewrite {1}Ef m_mul.
move: (mc x). move: (m f x) (m w x) (m c x) => e a b. case: (boolP (p %| e)%N) => D ->.
- move/eqP. by rewrite andbF -{1}[e]add0n eqn_add2r => /eqP <-.
- case: e D => [|k] D; first by rewrite dvdn0 in D.
  rewrite subn1 -pred_Sn -{1}[k.+1]add1n => /eqP. by rewrite eqn_add2r => /eqP <-.
Qed.
Lemma sq_inv_step f i w c y z c' : (0 < i)%N -> sq_inv f i w c -> y %= gcdp w c -> w = z * y -> c = c' * y ->
  sq_inv f i.+1 y c' /\ (forall x, m z x = ((m f x == i) && ~~ (p %| i)%N) :> nat).
Proof.
move=> i0 [w0 c0 mw mc] Ey Ew Ec.
have y0 : y != 0 by apply: contraNneq w0 => y0; rewrite Ew y0 mulr0.
have z0 : z != 0 by apply: contraNneq w0 => y1; rewrite Ew y1 mul0r.
have c'0 : c' != 0 by apply: contraNneq c0 => y1; rewrite Ec y1 mul0r.
have my x : m y x = ((i < m f x) && ~~ (p %| m f x))%N :> nat.
  rewrite (m_eqp _ _ Ey) // m_gcd // mw mc. case: (p %| m f x)%N; first by rewrite !andbF min0n.
  rewrite !andbT. case: (ltngtP i (m f x)) => H /=.
  - apply/minn_idPl. by rewrite subn_gt0.
  - by rewrite min0n.
  - by rewrite H subnn minn0.
split.
- split=> // x. have : m c x = (m c' x + m y x)%N by rewrite {1}Ec m_mul.
  rewrite mc my. case: (p %| m f x)%N => /=; first by rewrite andbF addn0.
  rewrite andbT. case: (ltnP i (m f x)) => H /=.
  + rewrite addn1 subnS => ->. by [].
  + rewrite addn0 => <-. have -> : (m f x - i = 0)%N by apply/eqP; rewrite subn_eq0.
    apply/esym/eqP. by rewrite subn_eq0 ltnW.
- move=> x. have : m w x = (m z x + m y x)%N by rewrite {1}Ew m_mul.
  rewrite mw my. case: (ltngtP i (m f x)) => H /=.
  + case: (p %| m f x)%N => /=; first by rewrite addn0. rewrite addn1 => -[]. by [].
  + by rewrite addn0.
  + rewrite addn0 -H. by [].
Qed.
Lemma sq_inv_end f i w c : sq_inv f i w c -> size w = 1%N ->
  c^`() = 0 /\ forall x, m c x = (if (p %| m f x)%N then m f x else 0%N).
Proof.
move=> [w0 c0 mw mc] /eqP/(m_const w0) Hw.
have Hc x : m c x = (if (p %| m f x)%N then m f x else 0%N).
  rewrite mc. case: ifP => // D. have := Hw x. rewrite mw D andbT. case: leqP => // H _. apply/eqP. by rewrite subn_eq0 ltnW.
split=> //. apply: deriv0_m => // x. rewrite Hc. by case: ifP.
Qed.
End Mult.

Section Combine.
Variable F : finFieldType.
Let p := #|F|.
Hypothesis charp : p \in [char F].
Variable L : closedFieldType.
Variable iota : {rmorphism F -> L}.
Notation m := (m iota).
(** The square-free decomposition of f: the factor paired with e has the roots of multiplicity e, each once. *)
Definition sqf_ok (f : {poly F}) (s : seq ({poly F} * nat)) : Prop :=
  [/\ f %= \prod_(t <- s) t.1 ^+ t.2, uniq (map snd s) &
      forall t, t \in s -> [/\ (0 < t.2)%N, (1 < size t.1)%N & forall x, m t.1 x = (m f x == t.2) :> nat]].
Definition scale_exp (s : seq ({poly F} * nat)) := [seq (t.1, (t.2 * p)%N) | t <- s].
Lemma prod_scale s : \prod_(t <- scale_exp s) t.1 ^+ t.2 = (\prod_(t <- s) t.1 ^+ t.2) ^+ p :> {poly F}.
Proof.
elim: s => [|t s IH]; first by rewrite !big_nil expr1n.
by rewrite /= !big_cons IH /= exprMn exprM.
Qed.
Lemma uniq_scale (s : seq ({poly F} * nat)) : uniq (map snd s) -> uniq (map snd (scale_exp s)).
Proof.
move=> U. rewrite /scale_exp -map_comp (_ : map _ s = map (muln^~ p) (map snd s)); last by rewrite -map_comp.
rewrite map_inj_uniq // => a b /eqP. rewrite eqn_pmul2r ?(p_gt0 charp) //. by move/eqP.
Qed.
Lemma sqf_pth (f g : {poly F}) s : f != 0 -> f^`() = 0 -> g %= extract f -> sqf_ok g s -> sqf_ok f (scale_exp s).
Proof.
move=> f0 d0 Eg [A B C]. have Ef := extract_pow charp d0.
have Efg : f %= g ^+ p by rewrite Ef eqp_exp // eqp_sym.
split; [|exact: uniq_scale|].
- by rewrite prod_scale (eqp_trans Efg) // eqp_exp.
- move=> _ /mapP[t It ->] /=. have [C1 C2 C3] := C t It. split=> //; first by rewrite muln_gt0 C1 (p_gt0 charp).
  move=> x. by rewrite C3 (m_eqp iota x f0 Efg) m_exp eqn_pmul2r // (p_gt0 charp).
Qed.
Definition sq_part (f : {poly F}) (i : nat) (w c : {poly F}) (zs : seq ({poly F} * nat)) : Prop :=
  [/\ f %= (\prod_(t <- zs) t.1 ^+ t.2) * w ^+ i * c, uniq (map snd zs) &
      forall t, t \in zs -> [/\ (0 < t.2 < i)%N, (1 < size t.1)%N, ~~ (p %| t.2)%N & forall x, m t.1 x = (m f x == t.2) :> nat]].
Lemma sq_part_skip (f : {poly F}) i (w c y z c' : {poly F}) zs : (0 < i)%N -> sq_part f i w c zs -> w = z * y -> c = c' * y -> size z = 1%N -> sq_part f i.+1 y c' zs.
Proof.
move=> i0 [A B C] Ew Ec Sz. split=> //.
- apply: eqp_trans A _. have /eqP/size_poly1P[a a0 Ez] := Sz. rewrite Ez in Ew.
  rewrite Ew Ec mul_polyC exprZn exprSr.
  have -> : forall P : {poly F}, P * (a ^+ i *: y ^+ i) * (c' * y) = a ^+ i *: (P * (y ^+ i * y) * c').
    move=> P. by rewrite -scalerAr -scalerAl !mulrA (mulrAC _ c').
  by rewrite eqp_scale // expf_neq0.
- move=> t /C[/andP[H1 H2] ? ? ?]. split=> //. by rewrite H1 ltnW.
Qed.
Lemma sq_part_push (f : {poly F}) i (w c y z z' c' : {poly F}) zs : (0 < i)%N -> sq_inv iota f i w c -> y %= gcdp w c -> sq_part f i w c zs -> w = z * y -> c = c' * y ->
  (1 < size z')%N -> z' %= z -> sq_part f i.+1 y c' (rcons zs (z', i)).
Proof.
move=> i0 I Ey [A B C] Ew Ec Sz Ez.
have [_ Mz] := sq_inv_step i0 I Ey Ew Ec.
have z'0 : z' != 0 by rewrite -size_poly_gt0 ltnW.
split.
- apply: eqp_trans A _. rewrite -cats1 big_cat /= big_seq1 /= Ew Ec exprMn exprSr.
  have -> : forall P : {poly F}, P * (z ^+ i * y ^+ i) * (c' * y) = P * (z ^+ i) * (y ^+ i * y) * c'.
    move=> P. by rewrite !mulrA (mulrAC _ c').
  apply: eqp_mulr. rewrite -exprSr. apply: eqp_mulr. apply: eqp_mull. by rewrite eqp_exp // eqp_sym.
- rewrite map_rcons rcons_uniq B andbT. apply/negP => /mapP[t It E]. have [/andP[_]] := C t It. by rewrite -E ltnn.
- move=> t. rewrite mem_rcons inE => /orP[/eqP->/=|/C[/andP[H1 H2] ? ? ?]]; last first.
    split=> //. by rewrite H1 ltnW.
  have Np : ~~ (p %| i)%N.
    have E' : size (z : {poly F}) != 1%N by rewrite -(eqp_size Ez) neq_ltn Sz orbT.
    have z0 : z != 0 by apply: contraTneq Ez => ->; rewrite eqp0.
    apply/negP => D. move/negP: E'. apply. apply/(m_const iota z0) => x. by rewrite Mz D andbF.
  rewrite i0 ltnSn. split=> // x. by rewrite (m_eqp iota x z'0 Ez) Mz Np andbT.
Qed.
Lemma sq_part_end f i w c zs : sq_part f i w c zs -> size w = 1%N -> size c = 1%N -> sqf_ok f zs.
Proof.
move=> [A B C] Sw Sc. split=> //.
- apply: eqp_trans A _. have /eqP/size_poly1P[a a0 ->] := Sw. have /eqP/size_poly1P[b b0 ->] := Sc.
  by rewrite -polyC_exp -mulrA -polyCM mulrC mul_polyC eqp_scale // mulf_neq0 // expf_neq0.
- move=> t /C[/andP[H1 _] H2 _ H3]. by split.
Qed.
Lemma sq_part_pth (f : {poly F}) i (w c g : {poly F}) zs s : f != 0 -> sq_inv iota f i w c -> sq_part f i w c zs -> size w = 1%N ->
  g %= extract c -> sqf_ok g s -> sqf_ok f (zs ++ scale_exp s).
Proof.
move=> f0 I [A B C] Sw Eg Sg.
have [dc mc] := sq_inv_end charp I Sw. case: I => _ c0 _ _.
have [A' B' C'] := sqf_pth c0 dc Eg Sg.
split.
- apply: eqp_trans A _. have /eqP/size_poly1P[a a0 ->] := Sw.
  rewrite big_cat /= -polyC_exp -mulrA mul_polyC. apply: eqp_mull. apply: eqp_trans A'. by rewrite eqp_scale // expf_neq0.
- rewrite map_cat cat_uniq B B' andbT /=. apply/hasPn => e /mapP[_ /mapP[t It ->] ->] /=.
  apply/negP => /mapP[u Iu /= Eu]. have [_ _ /negP H _] := C u Iu. apply: H. by rewrite -Eu dvdn_mull.
- move=> t. rewrite mem_cat => /orP[/C[/andP[H1 _] H2 _ H3]|It]; first by split.
  have [D1 D2 D3] := C' t It. split=> // x. rewrite D3 mc. case: ifP => // Np.
  case/mapP: It D1 => u _ -> /= D1. move: Np D1. case: (eqVneq (m f x) (u.2 * p)%N) => [->|//]. by rewrite dvdn_mull.
  move=> _ _. by case: (u.2 * p)%N.
Qed.
Lemma sqf_sep f s t : sqf_ok f s -> t \in s -> separable_poly t.1.
Proof.
move=> [_ _ C] /C[_ S H]. apply: (m_sep charp (iota:=iota)) => [|x]; first by rewrite -size_poly_gt0 ltnW.
rewrite H. by case: (_ == _).
Qed.
Lemma sqf_cop (f : {poly F}) s t u (q : {poly F}) : sqf_ok f s -> t \in s -> u \in s -> (1 < size q)%N -> q %| t.1 -> q %| u.1 -> t.2 = u.2.
Proof.
move=> [_ _ C] /C[_ S1 H1] /C[_ S2 H2] Sq D1 D2. have q0 : q != 0 by rewrite -size_poly_gt0 ltnW.
have : ~ (forall x, m q x = 0%N). { move/(m_const iota q0)/eqP => E. by rewrite E in Sq. }
have N1 : t.1 != 0 by rewrite -size_poly_gt0 ltnW. have N2 : u.1 != 0 by rewrite -size_poly_gt0 ltnW.
case: (eqVneq t.2 u.2) => // Ne K. exfalso. apply: K => x.
have := m_dvd iota x N1 D1. have := m_dvd iota x N2 D2. rewrite H1 H2.
case: (eqVneq (m f x) t.2) => [->|_]; last by rewrite leqn0 => _ /eqP.
by rewrite (negbTE Ne) leqn0 => /eqP.
Qed.
End Combine.

(** ** Distinct degrees *)
Section Ddf.
Variable F : finFieldType.
Let p := #|F|.
Hypothesis charp : p \in [char F].
(** no divisor of degree 1 .. d - 1 *)
Definition mind (d : nat) (f : {poly F}) : Prop := forall u, u %| f -> (1 < size u)%N -> (d < size u)%N.
Lemma mind_dvd d f g : g %| f -> mind d f -> mind d g.
Proof. move=> D M u Du. apply: M. exact: dvdp_trans Du D. Qed.
Lemma mind1 f : mind 1 f. Proof. by []. Qed.
Lemma mind_irr d (f : {poly F}) : f != 0 -> (0 < d)%N -> mind d f -> size f = d.+1 -> irreducible_poly f.
Proof.
move=> f0 d0 M S. split; first by rewrite S ltnS.
move=> q Sq Dq. have q0 : q != 0 by apply: contraNneq f0 => q0; move: Dq; rewrite q0 dvd0p.
have S1 : (1 < size q)%N by move: Sq q0; rewrite -size_poly_gt0; case: (size q) => [|[|n]].
rewrite -dvdp_size_eqp // eqn_leq dvdp_leq // S. exact: M.
Qed.
Lemma mind_irr2 d (f : {poly F}) : (1 < size f)%N -> mind d f -> (size f <= d + d)%N -> irreducible_poly f.
Proof.
move=> S1 M S. split=> // q Sq Dq. have f0 : f != 0 by rewrite -size_poly_gt0 ltnW.
have q0 : q != 0 by apply: contraNneq f0 => q0; move: Dq; rewrite q0 dvd0p.
have Sq1 : (1 < size q)%N by move: Sq q0; rewrite -size_poly_gt0; case: (size q) => [|[|n]].
have E := divpK Dq. have r0 : f %/ q != 0 by apply: contraNneq f0 => r0; rewrite -E r0 mul0r.
have Er : size f = (size (f %/ q) + size q).-1 by rewrite -{1}E size_mul.
have Mq := M q Dq Sq1.
case: (leqP (size (f %/ q)) 1) => Sr.
- rewrite -dvdp_size_eqp // Er. move: r0 Sr. rewrite -size_poly_gt0. by case: (size (f %/ q)) => [|[|n]].
- have Mr := M (f %/ q) (divp_dvd Dq) Sr.
  have : (d + d < size f)%N. { rewrite Er. by case: (size (f %/ q)%R + size q)%N (leq_add Mr Mq) => [|n]; rewrite addSn addnS. }
  by rewrite ltnNge S.
Qed.
Lemma ddf_pow d (fs h h1 : {poly F}) : fs %| h - 'X^(p ^ d) -> fs %| h1 - h ^+ p -> fs %| h1 - 'X^(p ^ d.+1).
Proof.
move=> A B. have -> : h1 - 'X^(p ^ d.+1) = (h1 - h ^+ p) + (h ^+ p - 'X^(p ^ d) ^+ p) by rewrite addrA subrK -exprM expnSr.
rewrite dvdp_add // -(Frobenius_autE (char_pol charp)) -(Frobenius_autE (char_pol charp)) -rmorphB /= Frobenius_autE.
apply: dvdp_trans A _. by rewrite -{1}[_ - _]expr1 dvdp_exp2l // (p_gt0 charp).
Qed.
Lemma ddf_step d (fs h g fn : {poly F}) : separable_poly fs -> mind d fs -> (0 < d)%N -> fs %| h - 'X^(p ^ d) -> g %= gcdp (h - 'X) fs -> fs = fn * g ->
  mind d.+1 fn.
Proof.
move=> S M d0 Dh Eg E u Du Su. have Dfn : fn %| fs by rewrite E dvdp_mulr.
have := M u (dvdp_trans Du Dfn) Su. rewrite leq_eqVlt => /orP[/eqP E'|//]. exfalso.
have u0 : u != 0 by rewrite -size_poly_gt0 ltnW.
have irr : irreducible_poly u by apply: (mind_irr u0 d0); [exact: mind_dvd (dvdp_trans Du Dfn) M|].
have Fu := fermat_irr irr. rewrite -E' -pred_Sn in Fu.
have Dg : u %| g.
  rewrite (eqp_dvdr _ Eg) dvdp_gcd (dvdp_trans Du Dfn) andbT.
  have -> : h - 'X = (h - 'X^(p ^ d)) + ('X^(p ^ d) - 'X) by rewrite addrA subrK.
  by rewrite dvdp_add // (dvdp_trans _ Dh) // (dvdp_trans Du Dfn).
have Du2 : u * u %| fs by rewrite E dvdp_mul.
have := separable_coprime S Du2. rewrite coprimepp => /eqP X. by rewrite X in Su.
Qed.
End Ddf.
