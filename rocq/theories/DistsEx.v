(** Cases that meet the hypotheses of the theorems on the catalogue of distributions, and the
    distributions for which its domains are wrong. *)
From Coq Require Import List Bool String Reals Lra Lia ZArith QArith Qreals.
From Verif Require Import Base Num Sets SetSpec SetIv SetProofs SetBuilt Poly Trans TransSpec TransFacts Logs Spe SpeSpec SpeFacts SpeRect LeafProofs Uniform Instances SpeEx ProgEx SetSpec Prog Dists DistsSpec PropDists.
Import ListNotations.
Local Open Scope string_scope.
Local Open Scope list_scope.
Local Open Scope R_scope.

(** ** The real numbers, for the domains that use pi *)
Definition Rltb (x y : R) : bool := if Rlt_dec x y then true else false.
Lemma Rltb_ok : forall x y, Rltb x y = true <-> x < y.
Proof. intros x y. unfold Rltb. destruct (Rlt_dec x y); split; auto; discriminate. Qed.
Lemma Rfloor_ok : forall x, IZR (up x - 1) <= x < IZR (up x - 1) + 1.
Proof. intros x. rewrite minus_IZR. destruct (archimed x). lra. Qed.
Lemma none_pow : forall b x y : R, 0 < b -> None = Some y -> y = Rpower b x.
Proof. discriminate. Qed.
Lemma none_log : forall b y x : R, 0 < b -> b <> 1 -> 0 < y -> None = Some x -> Rpower b x = y.
Proof. discriminate. Qed.
Definition RS : numsys := Numsys R (fun x => x) Rltb Rltb_ok IZR (fun z => eq_refl) Rplus (fun x y => eq_refl) Rmult (fun x y => eq_refl) Ropp (fun x => eq_refl)
  Rinv (fun x _ => eq_refl) (fun x => (up x - 1)%Z) Rfloor_ok (fun _ _ => None) none_pow (fun _ _ => None) none_log.

(** ** C48 *)
(** uniform(loc=2, scale=3) has the domain [2, 5] *)
Definition kw_u : kwargs (N:=QS) := [("loc", 2%Q); ("scale", 3%Q)].
Lemma kw_u_accepted : accepted (Con D_uniform) kw_u.
Proof. split; [cbn; unfold Q2R; cbn; lra|exact Logic.I]. Qed.
Lemma kw_u_claimed : forall n, n = Con D_uniform -> claimed n kw_u.
Proof. intros n ->. split; intros []. Qed.
Example C48_uniform_case : exists i, get_domain (N:=QS) 3%Q (fun x => x) (Con D_uniform) kw_u = Ok i /\ forall r, in_iv i (FNum r) <-> 2 <= r <= 5.
Proof.
  destruct (C48_domain_partial (N:=QS) 3%Q (fun x => x) (Con D_uniform) kw_u kw_u_accepted (kw_u_claimed _ eq_refl)) as (i & E & _ & _); [intros []|]. exists i. split; auto. intros r.
  rewrite (C48_exact_partial (N:=QS) 3%Q (fun x => x) (Con D_uniform) kw_u i r kw_u_accepted (kw_u_claimed _ eq_refl)); auto; try discriminate; try (intros []).
  assert (P : par kw_u 0 "loc" = 2 /\ par kw_u 1 "scale" = 3) by (split; cbn; unfold Q2R; cbn; lra). cbn [support standard]. destruct P as (-> & ->). split.
  - intros (u & Hu & ->). lra.
  - intros H. exists ((r - 2) / 3). split; lra.
Qed.
(** anglit() has the domain [-pi/4, pi/4] *)
Example C48_anglit_case : exists i, get_domain (N:=RS) PI sqrt (Con D_anglit) [] = Ok i /\ forall r, in_iv i (FNum r) <-> - (PI / 4) <= r <= PI / 4.
Proof.
  assert (A : accepted (N:=RS) (Con D_anglit) []) by (split; [cbn; lra|exact Logic.I]). assert (C : claimed (N:=RS) (Con D_anglit) []) by (split; [intros []|intros _; split; reflexivity]).
  destruct (C48_domain_partial (N:=RS) PI sqrt (Con D_anglit) [] A C (fun _ => eq_refl)) as (i & E & _ & _). exists i. split; auto. intros r.
  rewrite (C48_exact_partial (N:=RS) PI sqrt (Con D_anglit) [] i r A C (fun _ => eq_refl)); auto; try discriminate. cbn. split; [intros (u & Hu & ->); lra|intros H; exists r; split; lra].
Qed.
(** every distribution of the catalogue outside [wrong] has arguments that meet the hypotheses *)
Definition some_kwargs (N : numsys) (n : dname) : kwargs (N:=N) :=
  match n with
  | Con D_genextreme | Con D_genhalflogistic => [("c", nint 1)]
  | Con D_loguniform | Con D_truncnorm => [("a", nint 1); ("b", nint 2)]
  | Con D_truncexpon => [("b", nint 1)]
  | Dis D_betabinom | Dis D_binom => [("n", nint 1)]
  | Dis D_boltzmann => [("N", nint 1)]
  | Dis D_randint => [("low", nint 0); ("high", nint 1)]
  | _ => []
  end.
Lemma given_here : forall (N : numsys) (kw : kwargs (N:=N)) k z, lookup k kw = Some (nint z) -> given_as kw k (IZR z).
Proof. intros N kw k z H. exists (nint z). split; auto. apply nint_ok. Qed.
Lemma whole_int : forall z, whole (IZR z).
Proof. intros z. now exists z. Qed.
Lemma some_accepted_with : forall (N : numsys) n (e : kwargs (N:=N)), ~ wrong n -> (forall k, lookup k (e ++ some_kwargs N n) = match lookup k (some_kwargs N n) with Some a => Some a | None => lookup k e end) -> 0 < par (e ++ some_kwargs N n) 1 "scale" -> accepted n (e ++ some_kwargs N n).
Proof.
  intros N [n|n] e Nw L Hs.
  - split; auto. destruct n; try exact Logic.I; try (exists 1); try (exists 2); cbn [some_kwargs] in *; repeat split; try (apply given_here; rewrite L; reflexivity); try lra.
  - destruct n; try exact Logic.I; try (exfalso; apply Nw; exact Logic.I); cbn [some_kwargs] in *; [exists 1|exists 1|exists 1|exists 0, 1]; repeat split; try (apply given_here; rewrite L; reflexivity); try apply whole_int; lra.
Qed.
Theorem C48_inhabited : forall (N : numsys) n, ~ wrong n -> accepted n (some_kwargs N n) /\ claimed n (some_kwargs N n).
Proof.
  intros N n Nw. split.
  - apply (some_accepted_with N n []); auto; [intros k; cbn; now destruct (lookup k _)|]. destruct n as [[]|[]]; cbn; lra.
  - split; auto. intros _. split; destruct n as [[]|[]]; reflexivity.
Qed.

(** ** Distributions with the wrong domain *)
Section Refuted.
  Context {N : numsys} (pi : num N) (sq : num N -> num N) (Hpi : toR pi = PI).
  Lemma nmax_ge : forall x y : num N, toR x <= toR (nmax x y) /\ toR y <= toR (nmax x y).
  Proof. clear. intros x y. unfold nmax. destruct (nltb x y) eqn:E; [apply nltb_ok in E; lra|]. assert (~ toR x < toR y) by (intros K; apply nltb_ok in K; congruence). lra. Qed.
  Lemma nmin_le : forall x y : num N, toR (nmin x y) <= toR x /\ toR (nmin x y) <= toR y.
  Proof. clear. intros x y. unfold nmin. destruct (nltb y x) eqn:E; [apply nltb_ok in E; lra|]. assert (~ toR y < toR x) by (intros K; apply nltb_ok in K; congruence). lra. Qed.
  Definition fails (n : dname) (kw : kwargs (N:=N)) : Prop :=
    (exists e, get_domain pi sq n kw = Raise e) \/
    exists i r, get_domain pi sq n kw = Ok i /\ support n kw r /\ ~ in_iv i (FNum r).
  Lemma misses : forall n kw a b r, elt (eR a) (eR b) -> get_domain pi sq n kw = Interval_ a b false false -> support n kw r -> ~ (above a false r /\ TransSpec.below b false r) -> fails n kw.
  Proof. intros n kw a b r L E H K. destruct (iv_is a b false false L) as (i & Ei & _ & _ & _ & M). right. exists i, r. rewrite E, Ei. split; auto. split; auto. now rewrite M. Qed.
  (** for arguments that SciPy accepts, the domain is not built or lacks a value of the support *)
  Theorem C48_wrong_refuted : forall n, wrong n -> exists kw, accepted (N:=N) n kw /\ fails n kw.
  Proof.
    intros [n|n] Wn.
    - assert (A : 0 < par (N:=N) [] 1 "scale") by (cbn; lra).
      destruct n; try contradiction.
      + (* cosine *) exists []. split; [split; auto; exact Logic.I|]. pose proof PI_RGT_0. apply (misses _ _ (Fin (ndiv (nopp pi) (nint 2))) (Fin (ndiv pi (nint 2))) PI).
        * cbn. rewrite !ndiv_ok, nopp_ok, !nint_ok, Hpi by (rewrite nint_ok; lra). lra.
        * reflexivity.
        * exists PI. split; cbn; lra.
        * cbn. rewrite !ndiv_ok, nopp_ok, !nint_ok, Hpi by (rewrite nint_ok; lra). lra.
      + (* genlogistic *) exists []. split; [split; auto; exact Logic.I|]. apply (misses _ _ (Fin (nint 0)) PInf (-1)); [exact Logic.I|reflexivity|exists (-1); split; [exact Logic.I|cbn; lra]|cbn; rewrite nint_ok; lra].
      + (* gumbel_l *) exists []. split; [split; auto; exact Logic.I|]. apply (misses _ _ (Fin (nint 0)) PInf (-1)); [exact Logic.I|reflexivity|exists (-1); split; [exact Logic.I|cbn; lra]|cbn; rewrite nint_ok; lra].
      + (* kstwobign *) exists []. split; [split; auto; exact Logic.I|]. left. exists KeyError. reflexivity.
      + (* loggamma *) exists []. split; [split; auto; exact Logic.I|]. apply (misses _ _ NInf (Fin (nint 0)) 1); [exact Logic.I|reflexivity|exists 1; split; [exact Logic.I|cbn; lra]|cbn; rewrite nint_ok; lra].
      + (* powernorm *) exists []. split; [split; auto; exact Logic.I|]. apply (misses _ _ (Fin (nint 0)) PInf (-1)); [exact Logic.I|reflexivity|exists (-1); split; [exact Logic.I|cbn; lra]|cbn; rewrite nint_ok; lra].
      + (* tukeylambda *) exists [("lam", nint 1)]. split; [split; [exact A|exact Logic.I]|]. apply (misses _ _ (Fin (nint 0)) PInf (-1)); [exact Logic.I|reflexivity|exists (-1); split; [|cbn; lra]|cbn; rewrite nint_ok; lra].
        cbn. rewrite nint_ok. intros _. lra.
    - destruct n; try contradiction. (* hypergeom *) exists [("M", nint 20); ("n", nint 7); ("N", nint 12)]. split.
      + exists 20, 7, 12. repeat split; try (apply given_here; reflexivity); try apply whole_int; lra.
      + left. cbn [get_domain discrete_domain]. unfold kwarg. cbn [lookup String.eqb Ascii.eqb Bool.eqb bind].
        set (a := nmax (N:=N) _ _). set (b := nmin (N:=N) _ _).
        assert (Ha : 12 <= toR a). { pose proof (nmax_ge (nint 0) (nint 12)) as K1. pose proof (nmax_ge (nmax (nint 0) (nint 12)) (nadd (nsub (nint 12) (nint 20)) (nint 7))) as K2. rewrite !nint_ok in K1. unfold a. lra. }
        assert (Hb : toR b <= 7). { pose proof (nmin_le (nint 7) (nint 12)) as K1. rewrite !nint_ok in K1. unfold b. lra. }
        unfold Range. destruct (int_or_isinf_neg (Fin a)) as [[]|e]; cbn [bind passert]; [|eexists; reflexivity|eexists; reflexivity].
        destruct (int_or_isinf_pos (Fin b)) as [[]|e]; cbn [bind passert]; [|eexists; reflexivity|eexists; reflexivity].
        assert (Ne : eeqb (Fin a) (Fin b) = false). { destruct (eeqb (Fin a) (Fin b)) eqn:E; auto. change (neqb a b = true) in E. apply neqb_ok in E. lra. }
        rewrite Ne. unfold Interval_. cbn [eadd_bool].
        assert (Nl : eltb (Fin a) (Fin b) = false). { destruct (eltb (Fin a) (Fin b)) eqn:E; auto. apply eltb_elt in E. cbn in E. lra. }
        rewrite Nl. eexists. reflexivity.
  Qed.
  (** the domains that ignore loc: SciPy moves the distribution, the domain stays *)
  Definition shift_of (n : dname) : Z := match n with Con D_levy_l | Con D_weibull_max | Con D_genextreme => 100 | _ => -100 end.
  Definition point_of (n : dname) : Z := match n with Con D_levy_l | Con D_weibull_max => 0 | Con D_loguniform | Con D_truncnorm | Con D_genextreme | Con D_pareto | Dis D_logser | Dis D_zipf | Dis D_yulesimon => 1 | _ => 0 end.
  Definition moved (n : dname) : kwargs (N:=N) := [("loc", nint (shift_of n))] ++ some_kwargs N n.
  Lemma lookup_some : forall n k, lookup k (moved n) = match lookup k (some_kwargs N n) with Some a => Some a | None => lookup k [("loc", nint (shift_of n))] end.
  Proof.
    intros n k. unfold moved. cbn [app lookup]. destruct (String.eqb_spec k "loc") as [->|Nk].
    - destruct n as [[]|[]]; reflexivity.
    - now destruct (lookup k (some_kwargs N n)).
  Qed.
  Theorem C48_moved_refuted : forall n, unmoved n -> ~ wrong n -> exists kw, accepted (N:=N) n kw /\ fails n kw.
  Proof.
    intros n Un Nw. exists (moved n). split; [apply some_accepted_with; auto; [apply lookup_some|destruct n as [[]|[]]; cbn; lra]|].
    right. destruct (C48_inhabited N n Nw) as (A & C). pose proof PI_RGT_0. pose proof PI_4.
    destruct (domains pi sq n (some_kwargs N n) A C (fun _ => Hpi)) as (i & E & W & Ii & _ & H2).
    exists i, (IZR (shift_of n) + IZR (point_of n)). split; [|split].
    - rewrite <- E. destruct n as [[]|[]]; try contradiction; reflexivity.
    - assert (Pl : par (moved n) 0 "loc" = IZR (shift_of n)) by (unfold par; cbn; apply nint_ok). destruct n as [n|n]; cbn [support]; rewrite Pl.
      + exists (IZR (point_of (Con n))). split; [|destruct n; try contradiction; cbn; lra]. destruct n; try contradiction; cbn; rewrite ?nint_ok; try lra. 
      + exists (point_of (Dis n)). split; [|reflexivity]. destruct n; try contradiction; try (exfalso; apply Nw; exact Logic.I); cbn; rewrite ?nint_ok; try lia; try lra; split; try lia; lra.
    - intros K. assert (Dn : n = Dis D_boltzmann \/ ~ loose n) by (destruct n as [[]|[]]; try contradiction; ((left; reflexivity) || (right; intros []))).
      destruct Dn as [->|Nl].
      + apply in_iv_num in K. cbn [get_domain discrete_domain] in E. unfold kwarg in E. cbn [some_kwargs lookup String.eqb Ascii.eqb Bool.eqb bind] in E. apply range_low in E. rewrite E in K. destruct K as (K & _). cbn in K. rewrite nint_ok in K. destruct (iv_lo i); lra.
      + apply H2 in K; auto.
        * destruct n as [n|n].
          -- destruct K as (u & Su & Eu). destruct n; try contradiction; cbn in Su, Eu; rewrite ?nint_ok in Su; try lra.
          -- destruct K as (k & Sk & Ek). assert (P0 : par (some_kwargs N (Dis n)) 0 "loc" = 0) by (destruct n; reflexivity). rewrite P0 in Ek. rewrite Rplus_0_l, <- plus_IZR in Ek. apply eq_IZR in Ek. subst k. destruct n; try contradiction; try (exfalso; apply Nw; exact Logic.I); cbn in Sk; rewrite ?nint_ok in Sk; try lia; try lra.
        * intros Di. assert (P0 : par (some_kwargs N n) 0 "loc" = 0) by (destruct n as [[]|[]]; reflexivity). rewrite P0, Rminus_0_r, <- plus_IZR. apply whole_int.
  Qed.
End Refuted.
Definition C48_wrong_reals := C48_wrong_refuted (N:=RS) PI sqrt eq_refl.
Definition C48_moved_reals := C48_moved_refuted (N:=RS) PI sqrt eq_refl.

(** ** Leaves *)
Notation qsq := (fun x : num QS => x).
Lemma fin_all : forall l (P : fval -> Prop), fin_ok l -> Forall (fun p => P (FNum (IZR (fst p)))) l -> elaw (DFin l) (ind P) = 1.
Proof.
  intros l P (_ & T) F. cbn [elaw]. etransitivity; [|exact (fin_total l T)]. f_equal. apply map_ext_in. intros p Hp. rewrite Forall_forall in F. rewrite ind_true; [reflexivity|now apply F].
Qed.
(** uniform() *)
Lemma unif_doc : documented (D:=DQ) elaw (Con D_uniform) [] DUnif.
Proof.
  split; [exact unif_dist|]. apply (law_sub (D:=DQ) elaw DUnif (in_iv i01)); [exact unif_law|apply unif_supp; intros r H; apply in_iv_num; cbn; unfold Q2R; cbn; lra|].
  intros [r|s] H; [|contradiction]. apply in_iv_num in H. cbn in H. unfold Q2R in H; cbn in H. exists r. split; auto. exists r. cbn. lra.
Qed.
Lemma unif_makes : makes (D:=DQ) elaw (named (N:=QS) (D:=DQ) 3%Q qsq (Con D_uniform) [] DUnif) (elaw DUnif).
Proof.
  apply C48_leaf_partial; try exact Logic.I; try exact unif_doc.
  - split; [cbn; lra|exact Logic.I].
  - split; intros [].
  - intros [].
Qed.
(** a distribution on 1, 2, ... as geom, whose domain is the real line *)
Definition gl : list (Z * Q) := [(1%Z, 1#2); (2%Z, 1#4); (3%Z, 1#4)]%Q.
Lemma gl_ok : fin_ok gl.
Proof. split; [repeat constructor; discriminate|reflexivity]. Qed.
Lemma geom_doc : documented (N:=QS) (D:=DQ) elaw (Dis D_geom) [("p", 1#2)%Q] (DFin gl).
Proof.
  split; [exact (fin_dist gl gl_ok)|]. apply fin_all; [exact gl_ok|]. repeat constructor; cbn [fst]; eexists; (split; [reflexivity|]); [exists 1%Z|exists 2%Z|exists 3%Z]; (split; [cbn; lia|cbn; lra]).
Qed.
Lemma geom_makes : makes (D:=DQ) elaw (named (N:=QS) (D:=DQ) 3%Q qsq (Dis D_geom) [("p", 1#2)%Q] (DFin gl)) (elaw (DFin gl)).
Proof.
  apply C48_leaf_partial; try exact geom_doc.
  - exact Logic.I.
  - split; intros [].
  - intros [].
  - cbn. lra.
Qed.
(** X >> geom(p=.5) gives X = 1 the probability 1/2 *)
Example C48_leaf_case : exists s, named (N:=QS) (D:=DQ) 3%Q qsq (Dis D_geom) [("p", 1#2)%Q] (DFin gl) "X" = Ok s /\ forall w, den elaw s (ind (fun a => a "X" = FNum 1)) w = 1/2.
Proof.
  destruct (geom_makes "X") as (s & E & W & V & Dn). exists s. split; auto. intros w. rewrite Dn by auto with bnd. cbn [elaw gl map sumR fold_right fst snd].
  rewrite (ind_true _ _ (upd w "X" (FNum 1))) by reflexivity. rewrite !ind_false by (cbn; intros [= K]; lra). unfold Q2R; cbn. lra.
Qed.

(** ** C49 *)
(** .25 * uniform() | .75 * geom(p=.5) *)
Definition mix_ls : list (Q * (Prog.distribution (N:=QS) (D:=DQ) * ((fval -> R) -> R))) :=
  [((1#4)%Q, (named (N:=QS) (D:=DQ) 3%Q qsq (Con D_uniform) [] DUnif, elaw DUnif)); ((3#4)%Q, (named (N:=QS) (D:=DQ) 3%Q qsq (Dis D_geom) [("p", 1#2)%Q] (DFin gl), elaw (DFin gl)))].
Example C49_mixture_case : exists m s, mixture (map (fun p => (fst p, fst (snd p))) mix_ls) = Ok m /\ mix_call m "X" = Ok s /\
  forall w, den elaw s (ind (fun a => a "X" = FNum 1)) w = 3/8.
Proof.
  destruct (C49_mixture elaw mix_ls) as (m & Em & M).
  - repeat constructor; reflexivity.
  - reflexivity.
  - repeat constructor; cbn [fst snd]; [exact unif_makes|exact geom_makes].
  - destruct (M "X") as (s & Es & _ & _ & Dn). exists m, s. split; auto. split; auto. intros w. rewrite Dn by auto with bnd. unfold weighted. cbn [mix_ls map sumR fold_right fst snd].
    rewrite (law_ext (I:=elaw DUnif) _ (ind (eq (FNum 1)))); [|intros v; apply ind_eq; cbn; split; congruence]. cbn [elaw]. rewrite unif_point. cbn [gl map sumR fold_right fst snd].
    rewrite (ind_true _ _ (upd w "X" (FNum 1))) by reflexivity. rewrite !ind_false by (cbn; intros [= K]; lra). unfold Q2R; cbn. lra.
Qed.
(** weights 1/2 and 3/4 are refused *)
Example C49_weights_case : forall d : Prog.distribution (N:=QS) (D:=DQ), mixture [((1#2)%Q, d); ((3#4)%Q, d)] = Raise AssertionError /\ rmul 1 d = Raise ValueError.
Proof. split; reflexivity. Qed.
(** atomic(loc=2) *)
Example C49_atomic_case : makes (N:=QS) (D:=DQ) elaw (atomic (N:=QS) (D:=DQ) 3%Q qsq [("loc", 2%Q)] (DFin [(2%Z, 1%Q)])) (fun f => f (FNum 2)).
Proof.
  assert (F : fin_ok [(2%Z, 1%Q)]) by (split; [repeat constructor; discriminate|reflexivity]).
  apply C49_atomic; [cbn; unfold Q2R; cbn; lra|lia|]. split; [exact (fin_dist _ F)|]. apply fin_all; auto. repeat constructor. cbn [fst]. exists 2. split; auto. exists 2%Z. cbn. unfold Q2R; cbn. lra.
Qed.
(** scipy.stats.rv_discrete on whole numbers *)
Definition erv (l : list (num QS * Q)) : dist DQ := DFin (map (fun p => (nfloor (n:=QS) (fst p), snd p)) l).
Lemma erv_ok : rv_contract (N:=QS) (D:=DQ) elaw erv.
Proof.
  intros l [Pn Pt Pw Pd].
  assert (K : forall p, In p l -> IZR (nfloor (n:=QS) (fst p)) = toR (fst p)).
  { intros p Hp. rewrite Forall_forall in Pw. destruct (Pw p Hp) as ((z & Hz) & _). destruct (nfloor_ok QS (fst p)) as (K1 & K2). rewrite Hz in *. rewrite <- plus_IZR in K2. apply le_IZR in K1. apply lt_IZR in K2. f_equal. lia. }
  split.
  - apply fin_dist. split.
    + apply Forall_map. exact Pn.
    + rewrite map_map. cbn [snd]. exact Pt.
  - intros f. unfold erv, atoms_law. cbn [elaw]. rewrite map_map. f_equal. apply map_ext_in. intros p Hp. cbn [fst snd]. now rewrite K.
Qed.
Example C49_discrete_case : makes (N:=QS) (D:=DQ) elaw (discrete (N:=QS) (D:=DQ) erv [(1%Q, 1#4); (3%Q, 3#4)]%Q) (fun f => f (FNum 1) * (1/4) + f (FNum 3) * (3/4)).
Proof.
  assert (P : proper (N:=QS) [(1%Q, 1#4); (3%Q, 3#4)]%Q).
  { split; [repeat constructor; discriminate|reflexivity| |].
    - repeat constructor; cbn; try (exists 1%Z; unfold Q2R; cbn; lra); try (exists 3%Z; unfold Q2R; cbn; lra); unfold Q2R; cbn; lra.
    - cbn. repeat constructor; cbn; unfold Q2R; cbn; intuition lra. }
  intros x. destruct (C49_discrete elaw erv erv_ok _ P x) as (s & E & W & V & Dn). exists s. split; auto. split; auto. split; auto. intros f w Hf. rewrite Dn by auto. unfold atoms_law. cbn [map sumR fold_right fst snd].
  replace (@toR QS 1%Q) with 1 by (cbn; unfold Q2R; cbn; lra). replace (@toR QS 3%Q) with 3 by (cbn; unfold Q2R; cbn; lra). unfold Q2R; cbn. lra.
Qed.
Example C49_uniformd_case : makes (N:=QS) (D:=DQ) elaw (uniformd (N:=QS) (D:=DQ) erv [0%Q; 2%Q]) (fun f => (f (FNum 0) + f (FNum 2)) / 2).
Proof.
  intros x. destruct (C49_uniformd elaw erv erv_ok [0%Q; 2%Q]) with (x := x) as (s & E & W & V & Dn).
  - discriminate.
  - repeat constructor; cbn; try (exists 0%Z; unfold Q2R; cbn; lra); try (exists 2%Z; unfold Q2R; cbn; lra); unfold Q2R; cbn; lra.
  - cbn. repeat constructor; cbn; unfold Q2R; cbn; intuition lra.
  - exists s. split; auto. split; auto. split; auto. intros f w Hf. rewrite Dn by auto. cbn [map sumR fold_right List.length INR].
    replace (@toR QS 0%Q) with 0 by (cbn; unfold Q2R; cbn; lra). replace (@toR QS 2%Q) with 2 by (cbn; unfold Q2R; cbn; lra). lra.
Qed.

Definition all_dists_properties := (@C48_domain_partial, @C48_exact_partial, @C48_leaf_partial, @C48_wrong_refuted, @C48_moved_refuted,
  @C49_weights_checked, @C49_mixture, @C49_atomic, @C49_discrete, @C49_uniformd, C48_uniform_case, C48_anglit_case, C48_leaf_case, C49_mixture_case, C49_weights_case, C49_atomic_case, C49_discrete_case, C49_uniformd_case).
Print Assumptions all_dists_properties.
