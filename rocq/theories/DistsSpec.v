(** What the domains of the catalogue of distributions have to contain: the supports that the
    documentation of SciPy 1.4.1 gives.  Written without reference to the model's get_domain. *)
From Coq Require Import List Bool String Reals ZArith QArith Qreals.
From Verif Require Import Base Num Sets SetSpec Trans TransSpec Logs Spe SpeSpec Prog Dists.
Import ListNotations.
Local Open Scope string_scope.
Local Open Scope R_scope.

(** the support of the standard form (loc = 0, scale = 1) for the shape parameters [p], with its ends *)
Definition standard (n : continuous) (p : string -> R) (u : R) : Prop :=
  match n with
    | D_alpha | D_betaprime | D_burr | D_burr12 | D_chi | D_chi2 | D_erlang | D_expon | D_exponweib
    | D_exponpow | D_f | D_fatiguelife | D_fisk | D_foldcauchy | D_foldnorm | D_genexpon | D_gamma |
    D_gengamma | D_geninvgauss | D_gilbrat | D_gompertz | D_halfcauchy | D_halflogistic | D_halfnorm
    | D_halfgennorm | D_invgamma | D_invgauss | D_invweibull | D_kappa3 | D_kstwobign | D_levy |
    D_loglaplace | D_lognorm | D_lomax | D_maxwell | D_mielke | D_nakagami | D_ncx2 | D_ncf |
    D_powerlognorm | D_rayleigh | D_rice | D_recipinvgauss | D_wald | D_weibull_min
      => 0 <= u
    | D_arcsine | D_argus | D_beta | D_bradford | D_gausshyper | D_johnsonsb | D_ksone | D_powerlaw
    | D_trapz | D_triang | D_uniform
      => 0 <= u <= 1
    | D_cauchy | D_crystalball | D_dgamma | D_dweibull | D_exponnorm | D_gennorm | D_genlogistic |
    D_gumbel_r | D_gumbel_l | D_hypsecant | D_johnsonsu | D_kappa4 | D_laplace | D_levy_stable |
    D_logistic | D_loggamma | D_moyal | D_nct | D_norm | D_norminvgauss | D_pearson3 | D_powernorm |
    D_skewnorm | D_t
      => True
    | D_anglit => - (PI / 4) <= u <= PI / 4
    | D_cosine => - PI <= u <= PI
    | D_genpareto => 0 <= u /\ (p "c" < 0 -> u <= - / p "c")
    | D_genextreme => (0 < p "c" -> u <= / p "c") /\ (p "c" < 0 -> / p "c" <= u)
    | D_genhalflogistic => 0 <= u <= / p "c"
    | D_levy_l => u <= 0
    | D_loguniform => p "a" <= u <= p "b"
    | D_pareto => 1 <= u
    | D_rdist => -1 <= u <= 1
    | D_semicircular => -1 <= u <= 1
    | D_truncexpon => 0 <= u <= p "b"
    | D_truncnorm => p "a" <= u <= p "b"
    | D_tukeylambda => 0 < p "lam" -> - / p "lam" <= u <= / p "lam"
    | D_vonmises => - PI <= u <= PI
    | D_vonmises_line => - PI <= u <= PI
    | D_weibull_max => u <= 0
    | D_wrapcauchy => 0 <= u <= 2 * PI
  end.
Definition standard_int (n : discretes) (p : string -> R) (k : Z) : Prop :=
  match n with
  | D_bernoulli => (0 <= k <= 1)%Z
  | D_betabinom | D_binom => (0 <= k)%Z /\ IZR k <= p "n"
  | D_boltzmann => (0 <= k)%Z /\ IZR k <= p "N" - 1
  | D_dlaplace | D_skellam => True
  | D_geom | D_logser | D_zipf | D_yulesimon => (1 <= k)%Z
  | D_nbinom | D_planck | D_poisson => (0 <= k)%Z
  | D_hypergeom => 0 <= IZR k /\ p "N" - (p "M" - p "n") <= IZR k /\ IZR k <= p "n" /\ IZR k <= p "N"
  | D_randint => p "low" <= IZR k < p "high"
  end.

Section Support.
  Context {N : numsys}.
  Notation kwargs := (kwargs (N:=N)).
  Definition given_as (kw : kwargs) (k : string) (x : R) : Prop := exists a, lookup k kw = Some a /\ toR a = x.
  Definition par (kw : kwargs) (default : R) (k : string) : R := match lookup k kw with Some a => toR a | None => default end.
  (** the distribution is that of loc + scale * U, for U in standard form *)
  Definition support (n : dname) (kw : kwargs) (r : R) : Prop :=
    match n with
    | Con n => exists u, standard n (par kw 0) u /\ r = par kw 0 "loc" + par kw 1 "scale" * u
    | Dis n => exists k, standard_int n (par kw 0) k /\ r = par kw 0 "loc" + IZR k
    end.

  (** ** For which arguments the claim is made *)
  Definition whole (x : R) : Prop := exists z, x = IZR z.
  (** the arguments are those that SciPy accepts *)
  Definition accepted (n : dname) (kw : kwargs) : Prop :=
    match n with
    | Con n => 0 < par kw 1 "scale" /\
      match n with
      | D_genextreme => exists c, given_as kw "c" c
      | D_genhalflogistic => exists c, given_as kw "c" c /\ 0 < c
      | D_loguniform | D_truncnorm => exists a b, given_as kw "a" a /\ given_as kw "b" b /\ a < b
      | D_truncexpon => exists b, given_as kw "b" b /\ 0 < b
      | _ => True
      end
    | Dis D_betabinom | Dis D_binom => exists n, given_as kw "n" n /\ whole n /\ 0 <= n
    | Dis D_boltzmann => exists n, given_as kw "N" n /\ whole n /\ 1 <= n
    | Dis D_randint => exists l h, given_as kw "low" l /\ given_as kw "high" h /\ whole l /\ whole h /\ l < h
    | Dis D_hypergeom => exists M n k, given_as kw "M" M /\ given_as kw "n" n /\ given_as kw "N" k /\
        whole M /\ whole n /\ whole k /\ 0 <= n <= M /\ 0 <= k <= M
    | Dis _ => True
    end.
  (** the code gets these wrong whatever the arguments *)
  Definition wrong (n : dname) : Prop :=
    match n with
    | Con D_genlogistic | Con D_gumbel_l | Con D_powernorm | Con D_tukeylambda | Con D_loggamma
    | Con D_cosine | Con D_kstwobign | Dis D_hypergeom => True
    | _ => False
    end.
  (** the code ignores loc and scale *)
  Definition unmoved (n : dname) : Prop :=
    match n with
    | Con D_anglit | Con D_genextreme | Con D_genhalflogistic | Con D_levy_l | Con D_weibull_max
    | Con D_loguniform | Con D_truncnorm | Con D_pareto | Con D_rdist | Con D_semicircular
    | Con D_truncexpon | Con D_vonmises | Con D_vonmises_line | Con D_wrapcauchy => True
    | Con _ => False
    | Dis D_dlaplace | Dis D_skellam | Dis D_geom => False
    | Dis _ => True
    end.
  Definition claimed (n : dname) (kw : kwargs) : Prop :=
    ~ wrong n /\ (unmoved n -> par kw 0 "loc" = 0 /\ par kw 1 "scale" = 1).
  (** the domain uses the constant pi *)
  Definition circular (n : dname) : Prop :=
    match n with
    | Con D_anglit | Con D_vonmises | Con D_vonmises_line | Con D_wrapcauchy => True
    | _ => False
    end.
  (** the domain may be larger than the support *)
  Definition loose (n : dname) : Prop :=
    match n with Con D_genpareto | Dis D_boltzmann | Dis D_geom => True | _ => False end.
End Support.

(** ** Distributions as Python objects *)
Section Makes.
  Context {N : numsys} {S : logsys} {D : distsys N S}.
  Context (dlaw : dist D -> (fval -> R) -> R).
  (** X >> d returns an expression for X alone, and X is distributed according to L *)
  Definition makes (d : distribution (N:=N) (D:=D)) (L : (fval -> R) -> R) : Prop :=
    forall x, exists s, d x = Ok s /\ wf_spe dlaw s /\ (forall y, vars s y <-> y = x) /\
      forall f w, bnd f -> den dlaw s f w = L (fun v => f (upd w x v)).
  (** the distribution that SciPy returned is the documented one, as far as the leaf has to know *)
  Definition in_support (n : dname) (kw : kwargs (N:=N)) (v : fval) : Prop := exists r, v = FNum r /\ support n kw r.
  (** no discrete distribution on negative numbers: logprob truncates towards zero and fails on those *)
  Definition natural (n : dname) (kw : kwargs (N:=N)) : Prop :=
    match n with
    | Con _ => True
    | Dis D_geom => 0 <= par kw 0 "loc"
    | Dis _ => forall r, support n kw r -> 0 <= r
    end.
  Record documented (n : dname) (kw : kwargs (N:=N)) (d : dist D) : Prop := {
    doc_ok : dist_ok dlaw (is_discrete n) d;
    doc_support : dlaw d (ind (in_support n kw)) = 1
  }.
  (** the law of scipy.stats.rv_discrete(values=...) *)
  Definition atoms_law (l : list (num N * Q)) (f : fval -> R) : R := sumR (map (fun p => f (FNum (toR (fst p))) * Q2R (snd p)) l).
  Record proper (l : list (num N * Q)) : Prop := {
    pr_nonneg : Forall (fun p => 0 <= snd p)%Q l;
    pr_total : (Qsum (map snd l) == 1)%Q;
    pr_whole : Forall (fun p => whole (toR (fst p)) /\ 0 <= toR (fst p)) l;
    pr_distinct : NoDup (map (fun p => toR (fst p)) l)
  }.
  Definition rv_contract (rv : list (num N * Q) -> dist D) : Prop :=
    forall l, proper l -> dist_ok dlaw true (rv l) /\ forall f, dlaw (rv l) f = atoms_law l f.
  (** w1 * L1 + w2 * L2 + ... *)
  Definition weighted (l : list (Q * ((fval -> R) -> R))) (f : fval -> R) : R := sumR (map (fun p => Q2R (fst p) * snd p f) l).
End Makes.
