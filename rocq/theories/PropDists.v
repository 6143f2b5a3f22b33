(** Theorems about the catalogue of distributions (C48), its discrete constructors and mixtures (C49). *)
From Coq Require Import List Bool String Reals Lra Lia ZArith QArith Qreals.
From Verif Require Import Base Num Sets SetSpec SetIv SetProofs Poly Trans TransSpec TransFacts Dnf Logs Spe SpeSpec SpeFacts SpeRect LeafProofs SpeCons SpeOps OpsProofs ConstrainProofs RenderFits Prog Dists DistsSpec.
Import ListNotations.
Local Open Scope string_scope.
Local Open Scope list_scope.
Local Open Scope R_scope.

Section Domains.
  Context {N : numsys}.
  Lemma iv_is : forall a b lo ro, elt (eR a) (eR b) -> exists i : interval N, Interval_ a b lo ro = Ok i /\ wf_iv i /\ iv_a i = a /\ iv_b i = b /\
    forall r, in_iv i (FNum r) <-> above a lo r /\ below b ro r.
  Proof.
    intros a b lo ro H. unfold Interval_. apply eltb_elt in H. rewrite H. apply eltb_elt in H. cbn [passert bind]. eexists. split; [reflexivity|]. split.
    - split; [exact H|]. cbn. split; intros ->; cbn; apply orb_true_r.
    - split; [reflexivity|]. split; [reflexivity|]. intros r. rewrite in_iv_num. cbn. destruct a, b; cbn; rewrite ?orb_true_r, ?orb_false_r; reflexivity.
  Qed.
  Lemma range_is : forall a b : num N, whole (toR a) -> whole (toR b) -> toR a <= toR b -> exists i : interval N, Range (Fin a) (Fin b) = Ok i /\ wf_iv i /\ int_supp i /\ iv_a i = Fin a /\
    forall r, whole r -> (in_iv i (FNum r) <-> toR a <= r <= toR b).
  Proof.
    intros a b (za & Ha) (zb & Hb) L. unfold Range, int_or_isinf_neg, int_or_isinf_pos. cbn [bind].
    assert (Ia : is_int a = true) by (apply is_int_int; eauto). assert (Ib : is_int b = true) by (apply is_int_int; eauto). rewrite Ia, Ib. cbn [passert bind].
    assert (Ee : eeqb (Fin a) (Fin b) = neqb a b) by reflexivity. rewrite Ee. destruct (neqb a b) eqn:E.
    - apply neqb_ok in E. cbn [eadd_bool]. destruct (iv_is (Fin a) (Fin (nadd b (nint 1))) false true) as (i & Ei & W & A & B & M); [cbn; rewrite nadd_ok, nint_ok; lra|].
      exists i. split; auto. split; auto. split; [|split; auto].
      + split; rewrite ?A, ?B; cbn; [eauto|]. exists (zb + 1)%Z. rewrite nadd_ok, nint_ok, Hb, plus_IZR. reflexivity.
      + intros r (z & ->). rewrite M. cbn. rewrite nadd_ok, nint_ok, Ha, Hb. rewrite <- plus_IZR. split; intros (H1 & H2); split; auto.
        * apply le_IZR in H1. apply lt_IZR in H2. apply IZR_le. lia.
        * apply le_IZR in H2. apply IZR_lt. lia.
    - cbn [eadd_bool]. assert (toR a < toR b) by (destruct L as [L|L]; auto; apply neqb_ok in L; congruence). destruct (iv_is (Fin a) (Fin b) false false) as (i & Ei & W & A & B & M); [cbn; lra|].
      exists i. split; auto. split; auto. split; [|split; auto].
      + split; rewrite ?A, ?B; cbn; eauto.
      + intros r _. rewrite M. reflexivity.
  Qed.

  Context (pi : num N) (sqrt : num N -> num N).
  Notation kwargs := (kwargs (N:=N)).
  Lemma given_lookup : forall (kw : kwargs) k x, given_as kw k x -> exists a, lookup k kw = Some a /\ kwarg kw k = Ok a /\ toR a = x /\ par kw 0 k = x.
  Proof. intros kw k x (a & E & H). exists a. unfold kwarg, par. rewrite E. auto. Qed.
  Definition domain_ok (n : dname) (kw : kwargs) (i : interval N) : Prop :=
    wf_iv i /\ (is_discrete n = true -> int_supp i) /\ (forall r, support n kw r -> in_iv i (FNum r)) /\
    (~ loose n -> forall r, (is_discrete n = true -> whole (r - par kw 0 "loc")) -> in_iv i (FNum r) -> support n kw r).
  (** the three common shapes *)
  Lemma pos_domain : forall n kw, 0 < par kw 1 "scale" -> (forall p u, standard n p u -> 0 <= u) -> (~ loose (Con n) -> forall p u, 0 <= u -> standard n p u) ->
    exists i, RealsPosLoc kw = Ok i /\ domain_ok (Con n) kw i.
  Proof.
    intros n kw Hs H1 H2. unfold RealsPosLoc.
    assert (K : exists a : num N, toR a = par kw 0 "loc" /\ (match lookup "loc" kw with Some loc => Interval_ (Fin loc) PInf false false | None => Interval_ (Fin (nint 0)) PInf false false end) = Interval_ (Fin a) PInf false false).
    { unfold par. destruct (lookup "loc" kw) as [a|]; [eauto|]. exists (nint 0). split; [apply nint_ok|reflexivity]. }
    destruct K as (a & Ea & ->). destruct (iv_is (Fin a) PInf false false) as (i & Ei & W & A & B & M); [exact Logic.I|]. exists i. split; auto. split; auto. split; [discriminate|]. split.
    - intros r (u & Su & ->). apply M. cbn. apply H1 in Su. rewrite Ea. split; auto. pose proof (Rmult_le_pos (par kw 1 "scale") u). lra.
    - intros Nl r _ K. apply M in K. cbn in K. rewrite Ea in K. exists ((r - par kw 0 "loc") / par kw 1 "scale"). split; [|field; lra]. apply H2; auto. apply Rmult_le_pos; [lra|]. left. now apply Rinv_0_lt_compat.
  Qed.
  Lemma unit_domain : forall n kw, 0 < par kw 1 "scale" -> (forall p u, standard n p u <-> 0 <= u <= 1) -> exists i, UnitIntervalLocScale kw = Ok i /\ domain_ok (Con n) kw i.
  Proof.
    intros n kw Hs H. unfold UnitIntervalLocScale, kwarg_or.
    assert (K : exists a s : num N, toR a = par kw 0 "loc" /\ toR s = par kw 1 "scale" /\ match lookup "loc" kw with Some x => x | None => nint 0 end = a /\ match lookup "scale" kw with Some x => x | None => nint 1 end = s).
    { unfold par. destruct (lookup "loc" kw) as [a|], (lookup "scale" kw) as [s|]; eexists _, _; (split; [|split; [|split; reflexivity]]); auto; apply nint_ok. }
    destruct K as (a & s & Ea & Es & -> & ->). cbv zeta. destruct (iv_is (Fin a) (Fin (nadd a s)) false false) as (i & Ei & W & A & B & M); [cbn; rewrite nadd_ok; lra|]. exists i. split; auto. split; auto. split; [discriminate|]. split.
    - intros r (u & Su & ->). apply M. cbn. apply H in Su. rewrite nadd_ok, Ea, Es. split; [pose proof (Rmult_le_pos (par kw 1 "scale") u)|pose proof (Rmult_le_compat_l (par kw 1 "scale") u 1)]; lra.
    - intros _ r _ K. apply M in K. cbn in K. rewrite nadd_ok, Ea, Es in K. exists ((r - par kw 0 "loc") / par kw 1 "scale"). split; [|field; lra]. apply H. split.
      + apply Rmult_le_pos; [lra|]. left. now apply Rinv_0_lt_compat.
      + apply (Rmult_le_reg_r (par kw 1 "scale")); auto. unfold Rdiv. rewrite Rmult_assoc, Rinv_l; lra.
  Qed.
  Lemma real_domain : forall n kw, (forall c, n = Con c -> 0 < par kw 1 "scale" /\ forall p u, standard c p u) -> (forall c, n = Dis c -> ~ loose n -> forall p k, standard_int c p k) ->
    exists i, Interval_ NInf PInf false false = Ok i /\ domain_ok n kw i.
  Proof.
    intros n kw Hc Hd. destruct (iv_is NInf PInf false false) as (i & Ei & W & A & B & M); [exact Logic.I|]. exists i. split; auto. split; auto. split; [intros _; split; rewrite ?A, ?B; exact Logic.I|]. split.
    - intros r _. apply M. split; exact Logic.I.
    - intros Nl r Hr _. destruct n as [c|c]; cbn.
      + destruct (Hc c eq_refl) as (Hs & H). exists ((r - par kw 0 "loc") / par kw 1 "scale"). split; auto. field. lra.
      + destruct (Hr eq_refl) as (z & Hz). exists z. split; [now apply Hd|]. lra.
  Qed.
  (** the other domains of continuous distributions do not move *)
  Lemma fixed_domain : forall n kw a b, par kw 0 "loc" = 0 /\ par kw 1 "scale" = 1 -> elt (eR a) (eR b) ->
    (forall u, standard n (par kw 0) u <-> above a false u /\ below b false u) -> exists i, Interval_ a b false false = Ok i /\ domain_ok (Con n) kw i.
  Proof.
    intros n kw a b (Hl & Hs) H St. destruct (iv_is a b false false H) as (i & Ei & W & A & B & M). exists i. split; auto. split; auto. split; [discriminate|]. split.
    - intros r (u & Su & ->). rewrite Hl, Hs, Rplus_0_l, Rmult_1_l. apply M. now apply St.
    - intros _ r _ K. apply M in K. exists r. rewrite Hl, Hs. split; [now apply St|lra].
  Qed.
  Lemma int_range : forall n kw a b, par kw 0 "loc" = 0 -> whole (toR a) -> whole (toR b) -> toR a <= toR b -> (forall k, standard_int n (par kw 0) k -> toR a <= IZR k <= toR b) ->
    (~ loose (Dis n) -> forall k, toR a <= IZR k <= toR b -> standard_int n (par kw 0) k) -> exists i, Range (Fin a) (Fin b) = Ok i /\ domain_ok (Dis n) kw i.
  Proof.
    intros n kw a b Hl Wa Wb H S1 S2. destruct (range_is a b Wa Wb H) as (i & Ei & W & Is & A & M). exists i. split; auto. split; auto. split; auto. split.
    - intros r (k & Sk & ->). rewrite Hl, Rplus_0_l. apply M; [eexists; eauto|]. auto.
    - intros Nl r Hr K. rewrite Hl, Rminus_0_r in Hr. destruct (Hr eq_refl) as (z & ->). apply M in K; [|eexists; eauto]. exists z. rewrite Hl. split; [now apply S2|lra].
  Qed.
  Lemma int_above : forall n kw a lo, par kw 0 "loc" = 0 -> whole (toR a) -> (forall k, standard_int n (par kw 0) k <-> above (Fin a) lo (IZR k)) ->
    exists i, Interval_ (Fin a) PInf lo false = Ok i /\ domain_ok (Dis n) kw i.
  Proof.
    intros n kw a lo Hl Wa S1. destruct (iv_is (Fin a) PInf lo false) as (i & Ei & W & A & B & M); [exact Logic.I|]. exists i. split; auto. split; auto. split; [intros _; split; rewrite ?A, ?B; cbn; auto|]. split.
    - intros r (k & Sk & ->). rewrite Hl, Rplus_0_l. apply M. split; [now apply S1|exact Logic.I].
    - intros _ r Hr K. rewrite Hl, Rminus_0_r in Hr. destruct (Hr eq_refl) as (z & ->). apply M in K. exists z. rewrite Hl. split; [now apply S1|lra].
  Qed.
  Lemma ndiv_ok : forall x y : num N, toR y <> 0 -> toR (ndiv x y) = toR x / toR y.
  Proof. intros x y H. unfold ndiv. rewrite nmul_ok, ninv_ok; auto. Qed.

  Lemma domains : forall n kw, accepted n kw -> claimed n kw -> (circular n -> toR pi = PI) -> exists i, get_domain pi sqrt n kw = Ok i /\ domain_ok n kw i.
  Proof.
    intros [n|n] kw Ac (Nw & Um) Hp.
    - destruct Ac as (Hs & Ac). destruct n; cbn [get_domain continuous_domain];
        try (exfalso; apply Nw; exact Logic.I);
        try (apply pos_domain; [exact Hs|intros p u Su; cbn in Su; lra|intros Nl p u Su; try exact Su; exfalso; apply Nl; exact Logic.I]);
        try (apply unit_domain; [exact Hs|intros p u; reflexivity]);
        try (apply real_domain; [intros c [= <-]; split; [exact Hs|intros; exact Logic.I]|discriminate]);
        specialize (Um Logic.I); cbn in Ac.
      + (* anglit *) pose proof PI_RGT_0. assert (E4 : forall x, toR (ndiv x (nint 4)) = toR x / 4) by (intros x; rewrite ndiv_ok, nint_ok; [reflexivity|rewrite nint_ok; lra]).
        apply fixed_domain; [exact Um|cbn; rewrite ?E4, ?nopp_ok, (Hp Logic.I); lra|intros u; cbn; rewrite ?E4, ?nopp_ok, (Hp Logic.I); lra].
      + (* genextreme *) destruct Ac as (c & Gc). destruct (given_lookup _ _ _ Gc) as (a & _ & -> & Ea & Ep). cbn [bind]. destruct (neqb a (nint 0)) eqn:E0.
        * apply neqb_ok in E0. rewrite nint_ok in E0. apply fixed_domain; [exact Um|exact Logic.I|]. intros u. cbn. rewrite Ep. split; [tauto|]. intros _. split; lra.
        * assert (Na : toR a <> 0). { intros K. assert (neqb a (nint 0) = true) by (apply neqb_ok; rewrite nint_ok; exact K). congruence. }
          assert (E1 : toR (ndiv (nint 1) a) = / c) by (rewrite ndiv_ok, nint_ok, Ea by auto; unfold Rdiv; ring).
          destruct (nltb (nint 0) a) eqn:Es.
          -- apply nltb_ok in Es. rewrite nint_ok in Es. apply fixed_domain; [exact Um|exact Logic.I|]. intros u. cbn. rewrite Ep, E1. split; [intros (K & _); split; auto; apply K; lra|]. intros (_ & K). split; auto. lra.
          -- assert (toR a < 0). { destruct (Rtotal_order (toR a) 0) as [K|[K|K]]; auto; [tauto|]. assert (nltb (nint 0) a = true) by (apply nltb_ok; rewrite nint_ok; exact K). congruence. }
             apply fixed_domain; [exact Um|exact Logic.I|]. intros u. cbn. rewrite Ep, E1. split; [intros (_ & K); split; auto; apply K; lra|]. intros (K & _). split; auto. lra.
      + (* genhalflogistic *) destruct Ac as (c & Gc & Pc). destruct (given_lookup _ _ _ Gc) as (a & _ & -> & Ea & Ep). cbn [bind]. assert (Es : nltb (nint 0) a = true) by (apply nltb_ok; rewrite nint_ok; lra). rewrite Es. cbn [passert bind].
        assert (E1 : toR (ndiv (nint 1) a) = / c) by (rewrite ndiv_ok, nint_ok, Ea by lra; unfold Rdiv; ring). apply fixed_domain; [exact Um|cbn; rewrite E1, nint_ok; now apply Rinv_0_lt_compat|intros u; cbn; rewrite E1, nint_ok, Ep; tauto].
      + (* levy_l *) apply fixed_domain; [exact Um|exact Logic.I|]. intros u. cbn. rewrite nint_ok. tauto.
      + (* loguniform *) destruct Ac as (a & b & Ga & Gb & L). destruct (given_lookup _ _ _ Ga) as (x & _ & -> & Ex & Px). destruct (given_lookup _ _ _ Gb) as (y & _ & -> & Ey & Py). cbn [bind].
        apply fixed_domain; [exact Um|cbn; lra|]. intros u. cbn. rewrite Px, Py, Ex, Ey. tauto.
      + (* pareto *) apply fixed_domain; [exact Um|exact Logic.I|]. intros u. cbn. rewrite nint_ok. tauto.
      + (* rdist *) apply fixed_domain; [exact Um|cbn; rewrite !nint_ok; lra|intros u; cbn; rewrite !nint_ok; tauto].
      + (* semicircular *) apply fixed_domain; [exact Um|cbn; rewrite !nint_ok; lra|intros u; cbn; rewrite !nint_ok; tauto].
      + (* truncexpon *) destruct Ac as (b & Gb & L). destruct (given_lookup _ _ _ Gb) as (y & _ & -> & Ey & Py). cbn [bind]. apply fixed_domain; [exact Um|cbn; rewrite nint_ok, Ey; lra|intros u; cbn; rewrite nint_ok, Ey, Py; tauto].
      + (* truncnorm *) destruct Ac as (a & b & Ga & Gb & L). destruct (given_lookup _ _ _ Ga) as (x & _ & -> & Ex & Px). destruct (given_lookup _ _ _ Gb) as (y & _ & -> & Ey & Py). cbn [bind].
        apply fixed_domain; [exact Um|cbn; lra|]. intros u. cbn. rewrite Px, Py, Ex, Ey. tauto.
      + (* vonmises *) pose proof PI_RGT_0. apply fixed_domain; [exact Um|cbn; rewrite nopp_ok, (Hp Logic.I); lra|intros u; cbn; rewrite nopp_ok, (Hp Logic.I); tauto].
      + (* vonmises_line *) pose proof PI_RGT_0. apply fixed_domain; [exact Um|cbn; rewrite nopp_ok, (Hp Logic.I); lra|intros u; cbn; rewrite nopp_ok, (Hp Logic.I); tauto].
      + (* weibull_max *) apply fixed_domain; [exact Um|exact Logic.I|]. intros u. cbn. rewrite nint_ok. tauto.
      + (* wrapcauchy *) pose proof PI_RGT_0. apply fixed_domain; [exact Um|cbn; rewrite nmul_ok, !nint_ok, (Hp Logic.I); lra|intros u; cbn; rewrite nmul_ok, !nint_ok, (Hp Logic.I); tauto].
    - assert (W0 : forall z, whole (@toR N (nint z))) by (intros z; exists z; apply nint_ok).
      destruct n; cbn [get_domain discrete_domain]; cbn in Ac; try (exfalso; apply Nw; exact Logic.I);
        try (apply real_domain; [discriminate|intros c [= <-] Nl; try (exfalso; apply Nl; exact Logic.I); intros; exact Logic.I]); destruct (Um Logic.I) as (Hl & _); clear Um.
      + (* bernoulli *) apply int_range; auto; rewrite ?nint_ok; [lra| |]; cbn.
        * intros k Hk. rewrite ?nint_ok. split; apply IZR_le; lia.
        * intros _ k. rewrite ?nint_ok. intros (H1 & H2). apply le_IZR in H1, H2. lia.
      + (* betabinom *) destruct Ac as (b & Gb & Wb & L). destruct (given_lookup _ _ _ Gb) as (y & _ & -> & Ey & Py). cbn [bind]. apply int_range; auto; try (rewrite Ey; exact Wb); rewrite ?nint_ok, ?Ey; auto; cbn; rewrite Py.
        * intros k (H1 & H2). rewrite ?nint_ok. split; auto. now apply IZR_le.
        * intros _ k. rewrite ?nint_ok. intros (H1 & H2). split; auto. now apply le_IZR.
      + (* binom *) destruct Ac as (b & Gb & Wb & L). destruct (given_lookup _ _ _ Gb) as (y & _ & -> & Ey & Py). cbn [bind]. apply int_range; auto; try (rewrite Ey; exact Wb); rewrite ?nint_ok, ?Ey; auto; cbn; rewrite Py.
        * intros k (H1 & H2). rewrite ?nint_ok. split; auto. now apply IZR_le.
        * intros _ k. rewrite ?nint_ok. intros (H1 & H2). split; auto. now apply le_IZR.
      + (* boltzmann *) destruct Ac as (b & Gb & Wb & L). destruct (given_lookup _ _ _ Gb) as (y & _ & -> & Ey & Py). cbn [bind]. apply int_range; auto; try (rewrite Ey; exact Wb); rewrite ?nint_ok, ?Ey; [lra| |].
        * cbn. rewrite Py. intros k (H1 & H2). rewrite ?nint_ok. split; [now apply IZR_le|lra].
        * intros Nl. exfalso. apply Nl. exact Logic.I.
      + (* logser *) apply int_above; auto. intros k. cbn. rewrite ?nint_ok. split; intros H; [apply IZR_lt; lia|apply lt_IZR in H; lia].
      + (* nbinom *) apply int_above; auto. intros k. cbn. rewrite ?nint_ok. split; intros H; [apply IZR_le; lia|apply le_IZR in H; lia].
      + (* planck *) apply int_above; auto. intros k. cbn. rewrite ?nint_ok. split; intros H; [apply IZR_le; lia|apply le_IZR in H; lia].
      + (* poisson *) apply int_above; auto. intros k. cbn. rewrite nint_ok. split; intros H; [apply IZR_le; lia|apply le_IZR in H; lia].
      + (* randint *) destruct Ac as (a & b & Ga & Gb & Wa & Wb & L). destruct (given_lookup _ _ _ Ga) as (x & _ & -> & Ex & Px). destruct (given_lookup _ _ _ Gb) as (y & _ & -> & Ey & Py). cbn [bind].
        destruct (iv_is (Fin x) (Fin y) false true) as (i & Ei & W & A & B & M); [cbn; lra|]. exists i. split; [exact Ei|]. split; auto. split; [intros _; split; rewrite ?A, ?B; cbn; rewrite ?Ex, ?Ey; auto|]. split.
        * intros r (k & Sk & ->). rewrite Hl, Rplus_0_l. apply M. cbn in Sk |- *. rewrite Px, Py in Sk. rewrite Ex, Ey. exact Sk.
        * intros _ r Hr K. rewrite Hl, Rminus_0_r in Hr. destruct (Hr eq_refl) as (z & ->). apply M in K. exists z. rewrite Hl. split; [|lra]. cbn in K |- *. rewrite Ex, Ey in K. rewrite Px, Py. exact K.
      + (* zipf *) apply int_above; auto. intros k. cbn. rewrite nint_ok. split; intros H; [apply IZR_lt; lia|apply lt_IZR in H; lia].
      + (* yulesimon *) apply int_above; auto. intros k. cbn. rewrite nint_ok. split; intros H; [apply IZR_lt; lia|apply lt_IZR in H; lia].
  Qed.
End Domains.

Section Prop48.
  Context {N : numsys} (pi : num N) (sqrt : num N -> num N).
  Notation get_domain := (get_domain pi sqrt).
  (** The domain that the code gives to a distribution contains the support that SciPy documents.
      Partial: not for the eight distributions in [wrong], nor with loc and scale for those in
      [unmoved]; DistsEx.v shows that it fails for them. *)
  Theorem C48_domain_partial : forall n kw, accepted n kw -> claimed n kw -> (circular n -> toR pi = PI) ->
    exists i, get_domain n kw = Ok i /\ wf_iv i /\ forall r, support n kw r -> in_iv i (FNum r).
  Proof. intros n kw Ac Cl Hp. destruct (domains pi sqrt n kw Ac Cl Hp) as (i & E & W & _ & H & _). eauto. Qed.
  (** apart from the three distributions in [loose] it contains nothing else, on integers if discrete *)
  Theorem C48_exact_partial : forall n kw i r, accepted n kw -> claimed n kw -> (circular n -> toR pi = PI) -> ~ loose n -> get_domain n kw = Ok i ->
    (is_discrete n = true -> whole (r - par kw 0 "loc")) -> (in_iv i (FNum r) <-> support n kw r).
  Proof. intros n kw i r Ac Cl Hp Nl E Hr. destruct (domains pi sqrt n kw Ac Cl Hp) as (j & E' & _ & _ & H1 & H2). rewrite E in E'. injection E' as <-. split; auto. Qed.


  Lemma interval_low : forall a b lo ro (i : interval N), Interval_ a b lo ro = Ok i -> iv_a i = a.
  Proof. intros a b lo ro i H. unfold Interval_ in H. inv_bind H. now injection H as <-. Qed.
  Lemma range_low : forall a b (i : interval N), Range a b = Ok i -> iv_a i = a.
  Proof. intros a b i H. unfold Range in H. inv_bind H. inv_bind H. inv_bind H. inv_bind H. now apply interval_low in H. Qed.
  Lemma natural_low : forall n kw i, accepted n kw -> claimed n kw -> natural n kw -> is_discrete n = true -> n <> Dis D_geom -> get_domain n kw = Ok i -> ele (Fin 0) (eR (iv_a i)).
  Proof.
    intros [n|n] kw i Ac (Nw & Um) Nt Di Ng H; [discriminate|].
    assert (Z0 : ele (Fin 0) (eR (@Fin (num N) (nint 0)))) by (cbn; rewrite nint_ok; right; reflexivity).
    destruct n; cbn [get_domain discrete_domain] in H; try congruence; try (exfalso; apply Nw; exact Logic.I);
      try (apply range_low in H; rewrite H; exact Z0); try (apply interval_low in H; rewrite H; exact Z0); try (inv_bind H; apply range_low in H; rewrite H; exact Z0).
    - (* dlaplace *) exfalso. destruct (archimed (par kw 0 "loc")) as (K & _). specialize (Nt (par kw 0 "loc" + IZR (- up (par kw 0 "loc")))). rewrite opp_IZR in Nt. cut (0 <= par kw 0 "loc" + - IZR (up (par kw 0 "loc"))); [intros; lra|]. apply Nt. exists (- up (par kw 0 "loc"))%Z. split; [exact Logic.I|]. now rewrite opp_IZR.
    - (* randint *) destruct (Um Logic.I) as (Hl & _). destruct Ac as (a & b & Ga & Gb & (za & Wa) & Wb & L). destruct (given_lookup _ _ _ Ga) as (x & _ & Kx & Ex & Px). destruct (given_lookup _ _ _ Gb) as (y & _ & Ky & Ey & Py).
      rewrite Kx, Ky in H. cbn [bind] in H. apply interval_low in H. rewrite H. cbn. rewrite Ex. assert (K0 : 0 <= a); [|destruct K0 as [K0| <-]; [now left|now right]]. apply Nt. exists za. cbn. rewrite Px, Py, Hl, <- Wa. lra.
    - (* skellam *) exfalso. destruct (archimed (par kw 0 "loc")) as (K & _). specialize (Nt (par kw 0 "loc" + IZR (- up (par kw 0 "loc")))). rewrite opp_IZR in Nt. cut (0 <= par kw 0 "loc" + - IZR (up (par kw 0 "loc"))); [intros; lra|]. apply Nt. exists (- up (par kw 0 "loc"))%Z. split; [exact Logic.I|]. now rewrite opp_IZR.
  Qed.

  Context {S : logsys} {D : distsys N S} (dlaw : dist D -> (fval -> R) -> R).
  Notation makes := (makes dlaw).
  Notation wf_spe := (wf_spe dlaw).
  Lemma real_makes : forall disc d (supp : interval N), wf_iv supp -> (disc = true -> disc_supp dlaw d supp) -> dist_ok dlaw disc d -> dlaw d (ind (in_iv supp)) = 1 ->
    makes (real_dist (D:=D) disc d supp) (dlaw d).
  Proof.
    clear pi sqrt. intros disc d supp W Ds Dk H x. exists (RealLeaf disc x d supp false (base_env x)). split; [now apply (real_dist_ok dlaw)|].
    destruct (base_env_ok (N:=N) x) as (Eo & Ef). split; [|split].
    - refine (conj W (conj Ds (conj Dk (conj H (conj Eo _))))). intros w. cbn [SpeSpec.den real_law].
      rewrite (law_ext (I:=dlaw d) _ (fun _ => 0)); [apply (law_const (d_law _ _ _ Dk))|]. intros v. apply ind_false. intros K. apply K. apply Ef.
    - intros y. cbn. intuition.
    - intros f w _. cbn [SpeSpec.den real_law]. apply law_ext. intros v. now rewrite base_place.
  Qed.
  Lemma law_sub : forall d (P Q : fval -> Prop), law (dlaw d) -> dlaw d (ind P) = 1 -> (forall v, P v -> Q v) -> dlaw d (ind Q) = 1.
  Proof.
    clear pi sqrt. intros d P Q L H K. apply Rle_antisym; [apply (law_01 L)|]. rewrite <- H. apply (law_mono L); auto with bnd. intros v. unfold ind. destruct (dec (P v)), (dec (Q v)); try lra. exfalso. auto.
  Qed.
  Theorem C48_leaf_partial : forall n kw d, accepted n kw -> claimed n kw -> (circular n -> toR pi = PI) -> natural n kw -> documented dlaw n kw d ->
    makes (named pi sqrt n kw d) (dlaw d).
  Proof.
    intros n kw d Ac Cl Hp Nt [Dk Hs] x. destruct (domains pi sqrt n kw Ac Cl Hp) as (i & E & W & Ii & H1 & _). unfold named. rewrite E. cbn [bind]. apply real_makes; auto.
    - intros Di. destruct (Ii Di) as (Ia & Ib). split; auto. split; auto.
      assert (Dn : n = Dis D_geom \/ n <> Dis D_geom) by (destruct n as [c|[]]; ((left; congruence) || (right; congruence))).
      destruct Dn as [->|Ng]; [right|left; now apply (natural_low n kw i)].
      apply (law_sub d (in_support (Dis D_geom) kw)); auto; [apply (d_law _ _ _ Dk)|]. intros v (r & -> & k & Sk & ->). exists (par kw 0 "loc" + IZR k). split; auto. cbn in Sk, Nt. apply IZR_le in Sk. lra.
    - apply (law_sub d (in_support n kw)); auto; [apply (d_law _ _ _ Dk)|]. intros v (r & -> & K). auto.
  Qed.
End Prop48.

  Lemma Qsum_pos : forall (A : Type) (f : A -> Q) l, l <> [] -> Forall (fun p => 0 < f p)%Q l -> (0 < Qsum (map f l))%Q.
  Proof.
    intros A f l Ne F. induction F as [|a l H F IH]; [tauto|]. cbn. destruct l as [|b l]; [cbn; rewrite Qplus_0_r; auto|]. specialize (IH ltac:(discriminate)).
    change (0 + 0 < f a + Qsum (map f (b :: l)))%Q. apply Qplus_lt_le_compat; auto. now apply Qlt_le_weak.
  Qed.
  Lemma Qsum_prefix : forall (A : Type) (f : A -> Q) a b, Forall (fun p => 0 < f p)%Q b -> (Qsum (map f a) <= Qsum (map f (a ++ b)))%Q.
  Proof.
    intros A f a b F. rewrite map_app, Qsum_app. rewrite <- (Qplus_0_r (Qsum (map f a))) at 1. apply Qplus_le_compat; [apply Qle_refl|].
    destruct b as [|p b]; [apply Qle_refl|]. apply Qlt_le_weak, Qsum_pos; auto. discriminate.
  Qed.
Section Prop49.
  Context {N : numsys}.
  Context {S : logsys} {D : distsys N S} (dlaw : dist D -> (fval -> R) -> R).
  Notation makes := (makes dlaw).
  Notation wf_spe := (wf_spe dlaw).
  Notation den := (den dlaw).
  Notation dobj := (Prog.distribution (N:=N) (D:=D)).
  (** the weights of w1 * d1 | w2 * d2 | ... are checked, and kept with their distributions *)
  Lemma rmul_inv : forall w (d : dobj) m, rmul w d = Ok m -> (0 < w < 1)%Q /\ m = [(w, d)].
  Proof.
    intros w d m H. unfold rmul in H. destruct (Qle_bool w 0) eqn:E1; [discriminate|]. destruct (Qle_bool 1 w) eqn:E2; [discriminate|]. injection H as <-. split; auto.
    split; apply Qnot_le_lt; intros K; apply Qle_bool_iff in K; congruence.
  Qed.
  Lemma rmul_total : forall w (d : dobj), (0 < w < 1)%Q -> rmul w d = Ok [(w, d)].
  Proof.
    intros w d (H1 & H2). unfold rmul. destruct (Qle_bool w 0) eqn:E1; [apply Qle_bool_iff in E1; exfalso; revert H1; now apply Qle_not_lt|].
    destruct (Qle_bool 1 w) eqn:E2; [apply Qle_bool_iff in E2; exfalso; revert H2; now apply Qle_not_lt|]. reflexivity.
  Qed.
  Lemma or_inv : forall (m n : @mix N S D) r, mix_or m n = Ok r -> (Qsum (map fst (m ++ n)) <= 1)%Q /\ r = m ++ n.
  Proof.
    intros m n r H. unfold mix_or in H. inv_bind H. injection H as <-. unfold passert in E. destruct (Qle_bool (Qsum (map fst (m ++ n))) 1) eqn:E1; [|rewrite andb_false_r in E; discriminate]. split; auto. now apply Qle_bool_iff.
  Qed.
  Lemma or_total : forall (m n : @mix N S D), (0 < Qsum (map fst (m ++ n)))%Q -> (Qsum (map fst (m ++ n)) <= 1)%Q -> mix_or m n = Ok (m ++ n).
  Proof.
    intros m n H1 H2. unfold mix_or. destruct (Qle_bool (Qsum (map fst (m ++ n))) 0) eqn:E1; [apply Qle_bool_iff in E1; exfalso; revert H1; now apply Qle_not_lt|].
    apply Qle_bool_iff in H2. rewrite H2. reflexivity.
  Qed.
  Theorem C49_weights_checked : forall (ps : list (Q * dobj)) m, mixture ps = Ok m ->
    ps <> [] /\ m = ps /\ Forall (fun p => 0 < fst p < 1)%Q ps /\ (Qsum (map fst ps) <= 1)%Q.
  Proof.
    intros [|p ps] m H; [discriminate|]. split; [discriminate|]. cbn in H. inv_bind H. apply rmul_inv in E. destruct E as (Hp & ->).
    assert (G : forall ps acc m, Forall (fun p => 0 < fst p < 1)%Q acc -> (Qsum (map fst acc) <= 1)%Q ->
      foldM (fun m (p : Q * dobj) => do n <- rmul (fst p) (snd p); mix_or m n) ps acc = Ok m ->
      m = acc ++ ps /\ Forall (fun p => 0 < fst p < 1)%Q (acc ++ ps) /\ (Qsum (map fst (acc ++ ps)) <= 1)%Q).
    { clear. induction ps as [|p ps IH]; intros acc m F L H; cbn in H.
      - injection H as <-. rewrite app_nil_r. auto.
      - inv_bind H. inv_bind E. apply rmul_inv in E0. destruct E0 as (Hp & ->). apply or_inv in E. destruct E as (L' & ->). destruct p as (w, d). cbn [fst snd] in *.
        apply IH in H; auto; [|apply Forall_app; auto]. rewrite <- app_assoc in H. exact H. }
    destruct p as (w, d). cbn [fst snd] in *. apply (G ps [(w, d)] m); auto. cbn. rewrite Qplus_0_r. apply Qlt_le_weak. tauto.
  Qed.
  Lemma mixture_total : forall ps : list (Q * dobj), ps <> [] -> Forall (fun p => 0 < fst p < 1)%Q ps -> (Qsum (map fst ps) <= 1)%Q -> mixture ps = Ok ps.
  Proof.
    intros [|p ps] Ne F L; [tauto|]. inversion F as [|? ? Hp Fp]; subst. cbn. rewrite rmul_total by auto. cbn [bind].
    assert (G : forall ps acc, acc <> [] -> Forall (fun p => 0 < fst p < 1)%Q (acc ++ ps) -> (Qsum (map fst (acc ++ ps)) <= 1)%Q ->
      foldM (fun m (p : Q * dobj) => do n <- rmul (fst p) (snd p); mix_or m n) ps acc = Ok (acc ++ ps)).
    { clear. induction ps as [|p ps IH]; intros acc Ne F L; cbn; [now rewrite app_nil_r|].
      assert (F' : Forall (fun p => 0 < fst p)%Q (acc ++ p :: ps)) by (eapply Forall_impl; [|exact F]; cbn; tauto).
      assert (E : acc ++ p :: ps = (acc ++ [p]) ++ ps) by (now rewrite <- app_assoc). rewrite E in F, L, F' |- *.
      assert (Hp : (0 < fst p < 1)%Q). { rewrite Forall_forall in F. apply F. apply in_or_app. left. apply in_or_app. right. now left. }
      rewrite rmul_total by auto. cbn [bind]. destruct p as (w, d). cbn [fst snd]. apply Forall_app in F'. destruct F' as (F1 & F2). rewrite or_total.
      - cbn [bind]. apply IH; auto. intros K. apply (f_equal (@List.length _)) in K. rewrite app_length in K. cbn in K. lia.
      - apply Qsum_pos; auto. intros K. apply (f_equal (@List.length _)) in K. rewrite app_length in K. cbn in K. lia.
      - eapply Qle_trans; [|exact L]. now apply Qsum_prefix. }
    destruct p as (w, d). apply (G ps [(w, d)]); auto. discriminate.
  Qed.
  (** a mixture whose weights total 1 is the weighted sum of its distributions, each with its own weight *)
  Theorem C49_mixture : forall ls : list (Q * (dobj * ((fval -> R) -> R))), Forall (fun p => 0 < fst p < 1)%Q ls -> (Qsum (map fst ls) == 1)%Q ->
    Forall (fun p => makes (fst (snd p)) (snd (snd p))) ls ->
    exists m, mixture (map (fun p => (fst p, fst (snd p))) ls) = Ok m /\ makes (mix_call m) (weighted (map (fun p => (fst p, snd (snd p))) ls)).
  Proof.
    intros ls F T M. assert (Ne : ls <> []) by (intros ->; discriminate T).
    set (ps := map (fun p => (fst p, fst (snd p))) ls). assert (Ep : map fst ps = map fst ls) by (unfold ps; rewrite map_map; reflexivity).
    exists ps. split.
    - apply mixture_total.
      + unfold ps. destruct ls; [tauto|discriminate].
      + unfold ps. apply Forall_map. exact F.
      + rewrite Ep, T. apply Qle_refl.
    - intros x. unfold mix_call.
      assert (Ew : map (fun p : Q * dobj => @lofQ S (fst p)) ps = map (fun p : Q * (dobj * ((fval -> R) -> R)) => @lofQ S (fst p)) ls) by (unfold ps; rewrite map_map; reflexivity). rewrite Ew.
      assert (G : exists cs, mapM (fun p : Q * dobj => snd p x) ps = Ok cs /\ List.length cs = List.length ls /\ Forall wf_spe cs /\ (forall c y, In c cs -> (vars c y <-> y = x)) /\
        forall f w, bnd f -> sumR (map (fun p => toP (snd p) * den (fst p) f w) (combine cs (map (fun p => @lofQ S (fst p)) ls))) =
          weighted (map (fun p => (fst p, snd (snd p))) ls) (fun v => f (upd w x v))).
      { unfold ps. clear -F M. induction F as [|p ls Hp F IH]; cbn [map].
        - exists []. repeat split; auto; contradiction.
        - inversion M as [|? ? Mp M']; subst. destruct (IH M') as (cs & E & Len & W & V & Dn). destruct (Mp x) as (s & Es & Ws & Vs & Ds). exists (s :: cs). cbn [mapM snd]. rewrite Es. cbn [bind]. rewrite E. cbn [bind]. split; auto. split; [cbn; congruence|]. split; [auto|]. split.
          + intros c y [<-|Hc]; [apply Vs|now apply V].
          + intros f w Hf. unfold weighted in *. cbn [map combine sumR fold_right fst snd]. specialize (Dn f w Hf). unfold sumR in Dn. rewrite Dn. rewrite lofQ_ok by tauto. rewrite Ds by auto. reflexivity. }
      destruct G as (cs & E & Len & W & V & Dn). unfold Prog.distribution in E. rewrite E. cbn [bind].
      assert (T1 : sumR (map toP (map (fun p => @lofQ S (fst p)) ls)) = 1).
      { replace 1 with (Q2R (Qsum (map fst ls))) by (rewrite (Qeq_eqR _ _ T); unfold Q2R; cbn; lra). clear -F. induction F as [|p l Hp F IH]; cbn [map sumR fold_right Qsum]; [unfold Q2R; cbn; lra|]. unfold Qsum, sumR in IH. rewrite Q2R_plus, <- IH, lofQ_ok by tauto. reflexivity. }
      destruct (mk_Sum_total dlaw cs (map (fun p => @lofQ S (fst p)) ls)) as (t & Et); auto.
      + intros ->. destruct ls; [tauto|discriminate Len].
      + now rewrite map_length.
      + intros a b y Ha Hb Hy. apply (V b y Hb). now apply (V a y Ha).
      + exists t. split; auto. destruct (mk_Sum_ok dlaw _ _ _ W Et T1) as (_ & Wt & _ & Vt & Dt). split; auto. split.
        * intros y. destruct cs as [|c cs]; [destruct ls; [tauto|discriminate Len]|]. rewrite (Vt c y) by now left. apply V. now left.
        * intros f w Hf. rewrite Dt. now apply Dn.
  Qed.
  (** atomic(loc=k) is the point mass at k *)
  Theorem C49_atomic : forall pi sqrt a k d, toR a = IZR k -> (0 <= k)%Z -> documented dlaw (Dis D_randint) [("low", a); ("high", nadd a (nint 1))] d ->
    makes (atomic pi sqrt [("loc", a)] d) (fun f => f (FNum (IZR k))).
  Proof.
    intros pi sqrt a k d Ha Hk Doc x. set (kw := [("low", a); ("high", nadd a (nint 1))]) in *.
    assert (Pl : par kw 0 "low" = IZR k) by exact Ha. assert (Ph : par kw 0 "high" = IZR k + 1) by (unfold kw, par; cbn; rewrite nadd_ok, nint_ok, Ha; reflexivity).
    assert (Sp : forall r, support (Dis D_randint) kw r -> r = IZR k).
    { intros r (z & Sz & ->). cbn [standard_int] in Sz. rewrite Pl, Ph in Sz. replace (par kw 0 "loc") with 0 by reflexivity. rewrite Rplus_0_l. f_equal. destruct Sz as (S1 & S2). rewrite <- plus_IZR in S2. apply le_IZR in S1. apply lt_IZR in S2. lia. }
    destruct (C48_leaf_partial pi sqrt dlaw (Dis D_randint) kw d) with (x := x) as (s & Es & Ws & Vs & Dn); auto.
    - exists (IZR k), (IZR k + 1). split; [exists a; auto|]. split; [exists (nadd a (nint 1)); split; [reflexivity|rewrite nadd_ok, nint_ok, Ha; reflexivity]|]. split; [now exists k|]. split; [exists (k + 1)%Z; now rewrite plus_IZR|lra].
    - split; [intros []|]. intros _. split; reflexivity.
    - intros [].
    - intros r Hr. apply Sp in Hr. subst r. now apply IZR_le.
    - exists s. split; [exact Es|]. split; auto. split; auto. intros f w Hf. rewrite Dn by auto. destruct Doc as [Dk Ds]. pose proof (d_law _ _ _ Dk) as L.
      rewrite (law_as L _ (fun v => f (upd w x v)) (fun _ => f (upd w x (FNum (IZR k)))) (law_full L _ Ds)); auto with bnd.
      + apply (law_const L).
      + intros v Hv. destruct (dec (in_support (Dis D_randint) kw v)) as [(r & -> & Hr)|]; [|tauto]. apply Sp in Hr. now subst r.
  Qed.

  (** ** Finite discrete distributions *)
  Lemma fold_min : forall l (x : num N), let m := fold_left nmin l x in toR m <= toR x /\ Forall (fun y => toR m <= toR y) l /\ (m = x \/ In m l).
  Proof.
    induction l as [|y l IH]; intros x; cbn; [repeat split; auto; lra|]. destruct (IH (nmin x y)) as (H1 & H2 & H3). cbn in *.
    assert (K : toR (nmin x y) <= toR x /\ toR (nmin x y) <= toR y /\ (nmin x y = x \/ nmin x y = y)).
    { unfold nmin. destruct (nltb y x) eqn:E; [apply nltb_ok in E; repeat split; auto; lra|]. assert (~ toR y < toR x) by (intros K; apply nltb_ok in K; congruence). repeat split; auto; lra. }
    split; [lra|]. split; [constructor; [lra|auto]|]. destruct H3 as [->|H3]; [|auto]. destruct K as (_ & _ & [->| ->]); auto.
  Qed.
  Lemma fold_max : forall l (x : num N), let m := fold_left nmax l x in toR x <= toR m /\ Forall (fun y => toR y <= toR m) l /\ (m = x \/ In m l).
  Proof.
    induction l as [|y l IH]; intros x; cbn; [repeat split; auto; lra|]. destruct (IH (nmax x y)) as (H1 & H2 & H3). cbn in *.
    assert (K : toR x <= toR (nmax x y) /\ toR y <= toR (nmax x y) /\ (nmax x y = x \/ nmax x y = y)).
    { unfold nmax. destruct (nltb x y) eqn:E; [apply nltb_ok in E; repeat split; auto; lra|]. assert (~ toR x < toR y) by (intros K; apply nltb_ok in K; congruence). repeat split; auto; lra. }
    split; [lra|]. split; [constructor; [lra|auto]|]. destruct H3 as [->|H3]; [|auto]. destruct K as (_ & _ & [->| ->]); auto.
  Qed.
  Context (rv : list (num N * Q) -> dist D) (RV : rv_contract dlaw rv).
  Lemma rv_dom : forall l : list (num N), l <> [] -> Forall (fun a => whole (toR a) /\ 0 <= toR a) l -> exists i, rv_domain l = Ok i /\ wf_iv i /\ int_supp i /\ ele (Fin 0) (eR (iv_a i)) /\ Forall (fun a => in_iv i (FNum (toR a))) l.
  Proof.
    intros [|x l] Ne F; [tauto|]. unfold rv_domain, list_min, list_max. cbn [bind]. destruct (fold_min l x) as (A1 & A2 & A3). destruct (fold_max l x) as (B1 & B2 & B3). set (a := fold_left nmin l x) in *. set (b := fold_left nmax l x) in *.
    assert (Ia : In a (x :: l)) by (destruct A3 as [->|]; [left|right]; auto). assert (Ib : In b (x :: l)) by (destruct B3 as [->|]; [left|right]; auto).
    rewrite Forall_forall in F. destruct (F a Ia) as (Wa & Pa). destruct (F b Ib) as (Wb & Pb).
    destruct (range_is a b Wa Wb) as (i & Ei & W & Ii & Ea & M); [lra|]. exists i. split; auto. split; auto. split; auto. split.
    - rewrite Ea. cbn. destruct Pa as [Pa|Pa]; [now left|right; now rewrite <- Pa].
    - apply Forall_forall. intros c Hc. apply M; [apply F, Hc|]. rewrite Forall_forall in A2, B2. destruct Hc as [<-|Hc]; [lra|]. split; auto.
  Qed.
  Lemma sum_ones : forall (l : list (num N * Q)) (P : fval -> Prop), (Qsum (map snd l) == 1)%Q -> Forall (fun p => P (FNum (toR (fst p)))) l -> atoms_law l (ind P) = 1.
  Proof.
    intros l P T F. replace 1 with (Q2R (Qsum (map snd l))) by (rewrite (Qeq_eqR _ _ T); unfold Q2R; cbn; lra). unfold atoms_law. clear T. induction F as [|p l H F IH]; cbn [map sumR fold_right Qsum]; [unfold Q2R; cbn; lra|].
    unfold sumR, Qsum in IH. rewrite IH, ind_true, Q2R_plus by auto. unfold Qsum. ring.
  Qed.
  (** discrete({k: p, ...}) gives k the probability p *)
  Theorem C49_discrete : forall l, proper l -> makes (discrete rv l) (atoms_law l).
  Proof.
    intros l Pl x. destruct (RV l Pl) as (Dk & Dl). destruct Pl as [Pn Pt Pw Pd]. unfold discrete, rv_discrete.
    destruct (rv_dom (map fst l)) as (i & -> & W & (Ia & Ib) & Z & F).
    - intros K. destruct l; [discriminate Pt|discriminate K].
    - now apply Forall_map.
    - cbn [bind]. destruct (real_makes dlaw true (rv l) i) with (x := x) as (s & Es & Ws & Vs & Dn); auto.
      + intros _. split; auto.
      + rewrite Dl. apply sum_ones; auto. rewrite Forall_map in F. exact F.
      + exists s. split; auto. split; auto. split; auto. intros f w Hf. rewrite Dn by auto. apply Dl.
  Qed.
  (** uniformd({k, ...}) gives each of the n atoms the probability 1 / n *)
  Theorem C49_uniformd : forall l : list (num N), l <> [] -> Forall (fun a => whole (toR a) /\ 0 <= toR a) l -> NoDup (map toR l) ->
    makes (uniformd rv l) (fun f => sumR (map (fun a => f (FNum (toR a))) l) / INR (List.length l)).
  Proof.
    intros l Ne F Nd x. set (q := (1 # Pos.of_nat (List.length l))%Q). set (v := map (fun a => (a, q)) l).
    assert (Ln : (0 < List.length l)%nat) by (destruct l; [tauto|cbn; lia]).
    assert (Hq : Q2R q = / INR (List.length l)).
    { unfold q, Q2R. cbn [Qnum Qden]. rewrite <- (Nat2Pos.id (List.length l)) at 2 by lia. rewrite INR_IPR. unfold IZR at 2. lra. }
    assert (Sm : forall f : fval -> R, atoms_law v f = sumR (map (fun a => f (FNum (toR a))) l) / INR (List.length l)).
    { intros f. unfold atoms_law, v. rewrite map_map. cbn [fst snd]. rewrite Hq. clear. set (n := INR (List.length l)). clearbody n. induction l as [|a l IH]; cbn [map sumR fold_right]; [unfold Rdiv; ring|]. unfold sumR in IH. rewrite IH. unfold Rdiv. ring. }
    assert (P : proper v).
    { split.
      - apply Forall_map. apply Forall_forall. intros a _. cbn. unfold q, Qle. cbn. lia.
      - apply eqR_Qeq. rewrite Qsum_R. replace (Q2R 1) with 1 by (unfold Q2R; cbn; lra). unfold v. rewrite !map_map. cbn [snd]. rewrite <- (Rinv_l (INR (List.length l))) by (apply not_0_INR; lia). rewrite Hq. clear. generalize (/ INR (List.length l)) as c. intros c. induction l as [|a l IH]; cbn [map sumR fold_right List.length]; [cbn; ring|]. unfold sumR in IH. rewrite IH, S_INR. ring.
      - apply Forall_map. exact F.
      - unfold v. rewrite map_map. exact Nd. }
    destruct (C49_discrete v P x) as (s & Es & Ws & Vs & Dn). exists s. split; [exact Es|]. split; auto. split; auto. intros f w Hf. rewrite Dn by auto. apply Sm.
  Qed.
End Prop49.
