(** Model of src/distributions.py: the catalogue of SciPy distributions, mixtures and the discrete
    constructors.

    Simplifications.  Keyword arguments are finite numbers.  The object that SciPy returns for a name
    and its arguments, self.dist of the arguments, is a parameter: what is modelled is the domain that
    the code gives to the leaf.  The constant pi and the square root are those of SymPy. *)
From Coq Require Import List Bool String ZArith QArith.
From Verif Require Import Base Num Sets Poly Trans Dnf Logs Spe SpeOps Prog.
Import ListNotations.
Local Open Scope string_scope.
Local Open Scope list_scope.

(** The classes of src/distributions.py:89-592, derived from ContinuousReal *)
Inductive continuous :=
| D_alpha | D_anglit | D_arcsine | D_argus | D_beta | D_betaprime | D_bradford | D_burr | D_burr12 |
D_cauchy | D_chi | D_chi2 | D_cosine | D_crystalball | D_dgamma | D_dweibull | D_erlang | D_expon |
D_exponnorm | D_exponweib | D_exponpow | D_f | D_fatiguelife | D_fisk | D_foldcauchy | D_foldnorm |
D_genlogistic | D_gennorm | D_genpareto | D_genexpon | D_genextreme | D_gausshyper | D_gamma |
D_gengamma | D_genhalflogistic | D_geninvgauss | D_gilbrat | D_gompertz | D_gumbel_r | D_gumbel_l |
D_halfcauchy | D_halflogistic | D_halfnorm | D_halfgennorm | D_hypsecant | D_invgamma | D_invgauss |
D_invweibull | D_johnsonsb | D_johnsonsu | D_kappa4 | D_kappa3 | D_ksone | D_kstwobign | D_laplace |
D_levy | D_levy_l | D_levy_stable | D_logistic | D_loggamma | D_loglaplace | D_lognorm |
D_loguniform | D_lomax | D_maxwell | D_mielke | D_moyal | D_nakagami | D_ncx2 | D_ncf | D_nct |
D_norm | D_norminvgauss | D_pareto | D_pearson3 | D_powerlaw | D_powerlognorm | D_powernorm |
D_rdist | D_rayleigh | D_rice | D_recipinvgauss | D_semicircular | D_skewnorm | D_t | D_trapz |
D_triang | D_truncexpon | D_truncnorm | D_tukeylambda | D_uniform | D_vonmises | D_vonmises_line |
D_wald | D_weibull_min | D_weibull_max | D_wrapcauchy.
(** The classes of src/distributions.py:606-682, derived from DiscreteReal *)
Inductive discretes :=
| D_bernoulli | D_betabinom | D_binom | D_boltzmann | D_dlaplace | D_geom | D_hypergeom | D_logser |
D_nbinom | D_planck | D_poisson | D_randint | D_skellam | D_zipf | D_yulesimon.
Inductive dname := Con (n : continuous) | Dis (n : discretes).

Section Dists.
  Context {N : numsys} (pi : num N) (sqrt : num N -> num N).
  Notation interval := (interval N).
  Definition kwargs := list (string * num N).
  (** self.kwargs[k] *)
  Definition kwarg (kw : kwargs) (k : string) : res (num N) :=
    match lookup k kw with Some x => Ok x | None => Raise KeyError end.
  (** self.kwargs.get(k, default) *)
  Definition kwarg_or (kw : kwargs) (k : string) (x : num N) : num N :=
    match lookup k kw with Some x => x | None => x end.
  (** Python's x / y, max and min on numbers *)
  Definition ndiv (x y : num N) : num N := nmul x (ninv y).
  Definition nmax (x y : num N) : num N := if nltb x y then y else x.
  Definition nmin (x y : num N) : num N := if nltb y x then y else x.

  (** src/distributions.py:76-79 RealsPosLoc; RealsPos is src/sets.py:409 *)
  Definition RealsPosLoc (kw : kwargs) : res interval :=
    match lookup "loc" kw with
    | Some loc => Interval_ (Fin loc) PInf false false
    | None => Interval_ (Fin (nint 0)) PInf false false
    end.
  (** src/distributions.py:81-84 UnitIntervalLocScale; the same body at 528-531, 536-539, 559-562 *)
  Definition UnitIntervalLocScale (kw : kwargs) : res interval :=
    let loc := kwarg_or kw "loc" (nint 0) in
    let scale := kwarg_or kw "scale" (nint 1) in
    Interval_ (Fin loc) (Fin (nadd loc scale)) false false.

  (** get_domain of each class; Reals, RealsNeg, IntegersPos and so on are src/sets.py:408-418 *)
  Definition continuous_domain (n : continuous) (kw : kwargs) : res interval :=
    match n with
    | D_alpha => (* src/distributions.py:89-92 *) RealsPosLoc kw
    | D_anglit => (* src/distributions.py:94-97 *) Interval_ (Fin (ndiv (nopp pi) (nint 4))) (Fin (ndiv pi (nint 4))) false false
    | D_arcsine => (* src/distributions.py:99-102 *) UnitIntervalLocScale kw
    | D_argus => (* src/distributions.py:104-107 *) UnitIntervalLocScale kw
    | D_beta => (* src/distributions.py:109-112 *) UnitIntervalLocScale kw
    | D_betaprime => (* src/distributions.py:114-117 *) RealsPosLoc kw
    | D_bradford => (* src/distributions.py:119-122 *) UnitIntervalLocScale kw
    | D_burr => (* src/distributions.py:124-127 *) RealsPosLoc kw
    | D_burr12 => (* src/distributions.py:129-132 *) RealsPosLoc kw
    | D_cauchy => (* src/distributions.py:134-137 *) Interval_ NInf PInf false false
    | D_chi => (* src/distributions.py:139-142 *) RealsPosLoc kw
    | D_chi2 => (* src/distributions.py:144-147 *) RealsPosLoc kw
    | D_cosine => (* src/distributions.py:149-152 *) Interval_ (Fin (ndiv (nopp pi) (nint 2))) (Fin (ndiv pi (nint 2))) false false
    | D_crystalball => (* src/distributions.py:154-157 *) Interval_ NInf PInf false false
    | D_dgamma => (* src/distributions.py:159-162 *) Interval_ NInf PInf false false
    | D_dweibull => (* src/distributions.py:164-167 *) Interval_ NInf PInf false false
    | D_erlang => (* src/distributions.py:169-172 *) RealsPosLoc kw
    | D_expon => (* src/distributions.py:174-177 *) RealsPosLoc kw
    | D_exponnorm => (* src/distributions.py:179-182 *) Interval_ NInf PInf false false
    | D_exponweib => (* src/distributions.py:184-187 *) RealsPosLoc kw
    | D_exponpow => (* src/distributions.py:189-192 *) RealsPosLoc kw
    | D_f => (* src/distributions.py:194-197 *) RealsPosLoc kw
    | D_fatiguelife => (* src/distributions.py:199-202 *) RealsPosLoc kw
    | D_fisk => (* src/distributions.py:204-207 *) RealsPosLoc kw
    | D_foldcauchy => (* src/distributions.py:209-212 *) RealsPosLoc kw
    | D_foldnorm => (* src/distributions.py:214-217 *) RealsPosLoc kw
    | D_genlogistic => (* src/distributions.py:219-222 *) RealsPosLoc kw
    | D_gennorm => (* src/distributions.py:224-227 *) Interval_ NInf PInf false false
    | D_genpareto => (* src/distributions.py:229-232 *) RealsPosLoc kw
    | D_genexpon => (* src/distributions.py:234-237 *) RealsPosLoc kw
    | D_genextreme => (* src/distributions.py:239-250 *) do c <- kwarg kw "c";
      if neqb c (nint 0) then Interval_ NInf PInf false false
      else if nltb (nint 0) c then Interval_ NInf (Fin (ndiv (nint 1) c)) false false
      else Interval_ (Fin (ndiv (nint 1) c)) PInf false false
    | D_gausshyper => (* src/distributions.py:252-255 *) UnitIntervalLocScale kw
    | D_gamma => (* src/distributions.py:257-260 *) RealsPosLoc kw
    | D_gengamma => (* src/distributions.py:262-265 *) RealsPosLoc kw
    | D_genhalflogistic => (* src/distributions.py:267-272 *) do c <- kwarg kw "c"; do _ <- passert (nltb (nint 0) c);
      Interval_ (Fin (nint 0)) (Fin (ndiv (nint 1) c)) false false
    | D_geninvgauss => (* src/distributions.py:274-277 *) RealsPosLoc kw
    | D_gilbrat => (* src/distributions.py:279-282 *) RealsPosLoc kw
    | D_gompertz => (* src/distributions.py:284-287 *) RealsPosLoc kw
    | D_gumbel_r => (* src/distributions.py:289-292 *) Interval_ NInf PInf false false
    | D_gumbel_l => (* src/distributions.py:294-297 *) RealsPosLoc kw
    | D_halfcauchy => (* src/distributions.py:299-302 *) RealsPosLoc kw
    | D_halflogistic => (* src/distributions.py:304-307 *) RealsPosLoc kw
    | D_halfnorm => (* src/distributions.py:309-312 *) RealsPosLoc kw
    | D_halfgennorm => (* src/distributions.py:314-317 *) RealsPosLoc kw
    | D_hypsecant => (* src/distributions.py:319-322 *) Interval_ NInf PInf false false
    | D_invgamma => (* src/distributions.py:324-327 *) RealsPosLoc kw
    | D_invgauss => (* src/distributions.py:329-332 *) RealsPosLoc kw
    | D_invweibull => (* src/distributions.py:334-337 *) RealsPosLoc kw
    | D_johnsonsb => (* src/distributions.py:339-342 *) UnitIntervalLocScale kw
    | D_johnsonsu => (* src/distributions.py:344-347 *) Interval_ NInf PInf false false
    | D_kappa4 => (* src/distributions.py:349-352 *) Interval_ NInf PInf false false
    | D_kappa3 => (* src/distributions.py:354-357 *) RealsPosLoc kw
    | D_ksone => (* src/distributions.py:359-362 *) UnitIntervalLocScale kw
    | D_kstwobign => (* src/distributions.py:364-367 *) do n <- kwarg kw "n"; Interval_ (Fin (nint 0)) (Fin (sqrt n)) false false
    | D_laplace => (* src/distributions.py:369-372 *) Interval_ NInf PInf false false
    | D_levy => (* src/distributions.py:374-377 *) RealsPosLoc kw
    | D_levy_l => (* src/distributions.py:379-382 *) Interval_ NInf (Fin (nint 0)) false false
    | D_levy_stable => (* src/distributions.py:384-387 *) Interval_ NInf PInf false false
    | D_logistic => (* src/distributions.py:389-392 *) Interval_ NInf PInf false false
    | D_loggamma => (* src/distributions.py:394-397 *) Interval_ NInf (Fin (nint 0)) false false
    | D_loglaplace => (* src/distributions.py:399-402 *) RealsPosLoc kw
    | D_lognorm => (* src/distributions.py:404-407 *) RealsPosLoc kw
    | D_loguniform => (* src/distributions.py:409-412 *) do a <- kwarg kw "a"; do b <- kwarg kw "b"; Interval_ (Fin a) (Fin b) false false
    | D_lomax => (* src/distributions.py:414-417 *) RealsPosLoc kw
    | D_maxwell => (* src/distributions.py:419-422 *) RealsPosLoc kw
    | D_mielke => (* src/distributions.py:424-427 *) RealsPosLoc kw
    | D_moyal => (* src/distributions.py:429-432 *) Interval_ NInf PInf false false
    | D_nakagami => (* src/distributions.py:434-437 *) RealsPosLoc kw
    | D_ncx2 => (* src/distributions.py:439-442 *) RealsPosLoc kw
    | D_ncf => (* src/distributions.py:444-447 *) RealsPosLoc kw
    | D_nct => (* src/distributions.py:449-452 *) Interval_ NInf PInf false false
    | D_norm => (* src/distributions.py:454-457 *) Interval_ NInf PInf false false
    | D_norminvgauss => (* src/distributions.py:460-463 *) Interval_ NInf PInf false false
    | D_pareto => (* src/distributions.py:465-468 *) Interval_ (Fin (nint 1)) PInf false false
    | D_pearson3 => (* src/distributions.py:470-473 *) Interval_ NInf PInf false false
    | D_powerlaw => (* src/distributions.py:475-478 *) UnitIntervalLocScale kw
    | D_powerlognorm => (* src/distributions.py:480-483 *) RealsPosLoc kw
    | D_powernorm => (* src/distributions.py:485-488 *) RealsPosLoc kw
    | D_rdist => (* src/distributions.py:490-493 *) Interval_ (Fin (nint (-1))) (Fin (nint 1)) false false
    | D_rayleigh => (* src/distributions.py:495-498 *) RealsPosLoc kw
    | D_rice => (* src/distributions.py:500-503 *) RealsPosLoc kw
    | D_recipinvgauss => (* src/distributions.py:505-508 *) RealsPosLoc kw
    | D_semicircular => (* src/distributions.py:510-513 *) Interval_ (Fin (nint (-1))) (Fin (nint 1)) false false
    | D_skewnorm => (* src/distributions.py:515-518 *) Interval_ NInf PInf false false
    | D_t => (* src/distributions.py:520-523 *) Interval_ NInf PInf false false
    | D_trapz => (* src/distributions.py:525-531 *) UnitIntervalLocScale kw
    | D_triang => (* src/distributions.py:533-539 *) UnitIntervalLocScale kw
    | D_truncexpon => (* src/distributions.py:541-544 *) do b <- kwarg kw "b"; Interval_ (Fin (nint 0)) (Fin b) false false
    | D_truncnorm => (* src/distributions.py:546-549 *) do a <- kwarg kw "a"; do b <- kwarg kw "b"; Interval_ (Fin a) (Fin b) false false
    | D_tukeylambda => (* src/distributions.py:551-554 *) RealsPosLoc kw
    | D_uniform => (* src/distributions.py:556-562 *) UnitIntervalLocScale kw
    | D_vonmises => (* src/distributions.py:564-567 *) Interval_ (Fin (nopp pi)) (Fin pi) false false
    | D_vonmises_line => (* src/distributions.py:569-572 *) Interval_ (Fin (nopp pi)) (Fin pi) false false
    | D_wald => (* src/distributions.py:574-577 *) RealsPosLoc kw
    | D_weibull_min => (* src/distributions.py:579-582 *) RealsPosLoc kw
    | D_weibull_max => (* src/distributions.py:584-587 *) Interval_ NInf (Fin (nint 0)) false false
    | D_wrapcauchy => (* src/distributions.py:589-592 *) Interval_ (Fin (nint 0)) (Fin (nmul (nint 2) pi)) false false
    end.
  Definition discrete_domain (n : discretes) (kw : kwargs) : res interval :=
    match n with
    | D_bernoulli => (* src/distributions.py:606-609 *) Range (Fin (nint 0)) (Fin (nint 1))
    | D_betabinom => (* src/distributions.py:611-614 *) do n <- kwarg kw "n"; Range (Fin (nint 0)) (Fin n)
    | D_binom => (* src/distributions.py:616-619 *) do n <- kwarg kw "n"; Range (Fin (nint 0)) (Fin n)
    | D_boltzmann => (* src/distributions.py:621-624 *) do n <- kwarg kw "N"; Range (Fin (nint 0)) (Fin n)
    | D_dlaplace => (* src/distributions.py:626-629 *) Interval_ NInf PInf false false
    | D_geom => (* src/distributions.py:631-634 *) Interval_ NInf PInf false false
    | D_hypergeom => (* src/distributions.py:636-642 *) do N_ <- kwarg kw "N"; do M_ <- kwarg kw "M"; do n <- kwarg kw "n";
      Range (Fin (nmax (nmax (nint 0) N_) (nadd (nsub N_ M_) n))) (Fin (nmin n N_))
    | D_logser => (* src/distributions.py:644-647 *) Lopen (Fin (nint 0)) PInf
    | D_nbinom => (* src/distributions.py:649-652 *) Interval_ (Fin (nint 0)) PInf false false
    | D_planck => (* src/distributions.py:654-657 *) Interval_ (Fin (nint 0)) PInf false false
    | D_poisson => (* src/distributions.py:659-662 *) Interval_ (Fin (nint 0)) PInf false false
    | D_randint => (* src/distributions.py:664-667 *) do l <- kwarg kw "low"; do h <- kwarg kw "high"; Ropen (Fin l) (Fin h)
    | D_skellam => (* src/distributions.py:669-672 *) Interval_ NInf PInf false false
    | D_zipf => (* src/distributions.py:674-677 *) Lopen (Fin (nint 0)) PInf
    | D_yulesimon => (* src/distributions.py:679-682 *) Lopen (Fin (nint 0)) PInf
    end.
  Definition get_domain (n : dname) (kw : kwargs) : res interval :=
    match n with Con n => continuous_domain n kw | Dis n => discrete_domain n kw end.
  (** the attribute constructor, src/distributions.py:86-87, 603-604: DiscreteLeaf or ContinuousLeaf *)
  Definition is_discrete (n : dname) : bool := match n with Con _ => false | Dis _ => true end.

  (** ** Objects *)
  Context {S : logsys} {D : distsys N S}.
  Notation distribution := (distribution (N:=N) (D:=D)).
  (** src/distributions.py:40-42 RealDistribution.__call__ for the class [n]; [d] is self.dist of the
      keyword arguments *)
  Definition named (n : dname) (kw : kwargs) (d : dist D) : distribution := fun x =>
    do supp <- get_domain n kw;
    real_dist (is_discrete n) d supp x.
  (** src/distributions.py:684-690 atomic.__init__: the keyword arguments of randint *)
  Definition atomic_kwargs (kw : kwargs) : res kwargs :=
    do loc <- kwarg kw "loc";
    Ok ([("low", loc); ("high", nadd loc (nint 1))] ++ filter (fun p => negb (String.eqb (fst p) "loc")) kw).
  Definition atomic (kw : kwargs) (d : dist D) : distribution := fun x =>
    do kw' <- atomic_kwargs kw;
    named (Dis D_randint) kw' d x.
  (** Python's min(l) and max(l) *)
  Definition list_min (l : list (num N)) : res (num N) :=
    match l with [] => Raise ValueError | x :: l => Ok (fold_left nmin l x) end.
  Definition list_max (l : list (num N)) : res (num N) :=
    match l with [] => Raise ValueError | x :: l => Ok (fold_left nmax l x) end.
  (** src/distributions.py:692-697 rv_discrete; [rv] is scipy.stats.rv_discrete on atoms and their
      probabilities *)
  Context (rv : list (num N * Q) -> dist D).
  Definition rv_domain (atoms : list (num N)) : res interval :=
    do a <- list_min atoms; do b <- list_max atoms;
    Range (Fin a) (Fin b).
  Definition rv_discrete (values : list (num N * Q)) : distribution := fun x =>
    do supp <- rv_domain (map fst values);
    real_dist true (rv values) supp x.
  (** src/distributions.py:699-704 uniformd *)
  Definition uniformd (values : list (num N)) : distribution :=
    rv_discrete (map (fun a => (a, 1 # Pos.of_nat (List.length values))%Q) values).
  (** src/distributions.py:706-714 discrete *)
  Definition discrete (values : list (num N * Q)) : distribution := rv_discrete values.

  (** ** Mixtures *)
  (** a DistributionMix: src/distributions.py:47-51 *)
  Definition mix := list (Q * distribution).
  (** src/distributions.py:8-16 Distribution.__rmul__ *)
  Definition rmul (w : Q) (d : distribution) : res mix :=
    if negb (Qle_bool w 0) && negb (Qle_bool 1 w) then Ok [(w, d)] else Raise ValueError.
  (** src/distributions.py:59-66 DistributionMix.__or__ *)
  Definition mix_or (m n : mix) : res mix :=
    let total := Qsum (map fst (m ++ n)) in
    do _ <- passert (negb (Qle_bool total 0) && Qle_bool total 1);
    Ok (m ++ n).
  (** src/distributions.py:52-57 DistributionMix.__call__ *)
  Definition mix_call (m : mix) : distribution := fun x =>
    do cs <- mapM (fun p => snd p x) m;
    mk_Sum cs (map (fun p => lofQ (fst p)) m).
  (** the Python expression w1 * d1 | w2 * d2 | ... *)
  Definition mixture (ps : list (Q * distribution)) : res mix :=
    match ps with
    | [] => Raise SyntaxError
    | p :: ps => do m <- rmul (fst p) (snd p); foldM (fun m p => do n <- rmul (fst p) (snd p); mix_or m n) ps m
    end.
End Dists.
