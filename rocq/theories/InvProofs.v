(** Inversion of transforms and solving of events are exact. *)
From Coq Require Import List Bool String Reals Lra Lia ZArith Classical.
From Verif Require Import Base Num Sets SetSpec SetIv SetProofs SetIvOr SetOr SetOps SetAlg SetBuilt
  Poly Trans TransSpec TransFacts PolyProofs.
Import ListNotations.
Local Open Scope R_scope.

(** ** The real functions *)

Lemma pow_lt_iff : forall n x y, 0 <= x -> 0 <= y -> (x < y <-> x ^ S n < y ^ S n).
Proof.
  assert (L : forall n x y, 0 <= x -> x < y -> x ^ S n < y ^ S n).
  { induction n as [|n IH]; intros x y Hx H; [simpl; lra|].
    specialize (IH x y Hx H). change (x * x ^ S n < y * y ^ S n).
    assert (0 <= x ^ S n) by (apply pow_le; auto). nra. }
  intros n x y Hx Hy. split; [now apply L|]. intros H.
  destruct (Rtotal_order x y) as [?|[->|?]]; [auto|lra|].
  assert (y ^ S n < x ^ S n) by (apply L; auto). lra.
Qed.
Lemma pow_le_iff : forall n x y, 0 <= x -> 0 <= y -> (x <= y <-> x ^ S n <= y ^ S n).
Proof.
  intros n x y Hx Hy. pose proof (pow_lt_iff n y x Hy Hx) as Q.
  split; intros H; apply Rnot_lt_le; intros L; apply Q in L; lra.
Qed.
Lemma f_root_iff : forall d x y, f_root d x = Some y <-> 0 <= x /\ 0 <= y /\ y ^ Pos.to_nat d = x.
Proof.
  intros d x y. unfold f_root. destruct (Pos2Nat.is_succ d) as (n & En). rewrite En.
  destruct (Rlt_dec x 0); [split; [discriminate|lra]|].
  destruct (Req_EM_T x 0) as [->|Hx].
  - split.
    + intros [= <-]. ands; [lra|lra|]. simpl. ring.
    + intros (_ & Hy & H). destruct (Req_dec y 0); [congruence|].
      pose proof (pow_lt y (S n)). lra.
  - assert (Px : 0 < x) by lra.
    assert (E : Rpower x (/ INR (S n)) ^ S n = x).
    { rewrite <- Rpower_pow by (unfold Rpower; apply exp_pos). rewrite Rpower_mult.
      rewrite Rinv_l by (apply not_0_INR; discriminate). now apply Rpower_1. }
    assert (P : 0 < Rpower x (/ INR (S n))) by (unfold Rpower; apply exp_pos).
    set (z := Rpower x (/ INR (S n))) in *. clearbody z. split.
    + intros H. injection H as <-. ands; [lra|lra|exact E].
    + intros (_ & Hy & H). f_equal.
      pose proof (pow_lt_iff n y z Hy ltac:(lra)). pose proof (pow_lt_iff n z y ltac:(lra) Hy).
      destruct (Rtotal_order y z) as [?|[?|?]]; [|lra|].
      * assert (y ^ S n < z ^ S n) by tauto. lra.
      * assert (z ^ S n < y ^ S n) by tauto. lra.
Qed.
Lemma Rpower_pos : forall b x, 0 < Rpower b x.
Proof. intros. unfold Rpower. apply exp_pos. Qed.
Lemma Rpower_lt_iff : forall b x y, 1 < b -> (x < y <-> Rpower b x < Rpower b y).
Proof.
  intros b x y Hb. split; [now apply Rpower_lt|]. intros H.
  destruct (Rtotal_order x y) as [?|[->|L]]; [auto|lra|].
  apply (Rpower_lt b) in L; auto. lra.
Qed.
Lemma Rpower_inj : forall b x y, 1 < b -> Rpower b x = Rpower b y -> x = y.
Proof.
  intros b x y Hb E. pose proof (Rpower_lt_iff b x y Hb). pose proof (Rpower_lt_iff b y x Hb).
  destruct (Rtotal_order x y) as [?|[?|?]]; [|auto|].
  - assert (Rpower b x < Rpower b y) by tauto. lra.
  - assert (Rpower b y < Rpower b x) by tauto. lra.
Qed.
Lemma f_log_iff : forall b x y, 1 < b -> (f_log b x = Some y <-> Rpower b y = x).
Proof.
  intros b x y Hb. unfold f_log. assert (0 < ln b) by (rewrite <- ln_1; apply ln_increasing; lra).
  destruct (Rlt_dec 0 x) as [Hx|Hx].
  - assert (E : Rpower b (ln x / ln b) = x).
    { unfold Rpower. replace (ln x / ln b * ln b) with (ln x) by (field; lra). now apply exp_ln. }
    split; [intros [= <-]; auto|]. intros E'. f_equal. apply (Rpower_inj b); auto. lra.
  - split; [discriminate|]. intros E. pose proof (Rpower_pos b y). lra.
Qed.
Lemma f_recip_iff : forall x y, f_recip x = Some y <-> x <> 0 /\ y = / x.
Proof.
  intros x y. unfold f_recip. destruct (Req_EM_T x 0); split; try discriminate; try tauto.
  - intros [= <-]. auto.
  - intros (_ & ->). auto.
Qed.

Section Inv.
  Context {N : numsys} (io : iterorder N) (po : polyoracle N) (fuel : nat).
  Notation enum := (ext (num N)).
  Notation num := (num N).
  Notation tr := (tr N).
  Notation pset := (pset N).
  Notation invert := (invert io po fuel).

  Definition exactK (K : pset -> Prop) (X : string) (b : bool) (t : tr) (s r : pset) : Prop :=
    wf r /\ K r /\
    forall w, regular b t w -> (fm (w X) r <-> exists z, teval t w = Some (FNum z) /\ fm (FNum z) s).
  Definition exact := exactK real_set.

  Definition inv_exact (X : string) (t : tr) : Prop :=
    forall b s r, wf s -> (b = false -> inffree s) -> invert t s = Ok r -> exact X b t s r.

  Definition in_range (t : tr) (rg : pset) : Prop :=
    forall w z, teval t w = Some (FNum z) -> fm (FNum z) rg.

  Definition closedU (K : pset -> Prop) : Prop :=
    K PEmpty /\ forall l r, Forall wf l -> Forall K l -> make_union io l = Ok r -> K r.
  Definition closedS (Q : pset -> Prop) : Prop :=
    forall s s', Q s -> (forall v, mem v s' -> mem v s) -> Q s'.

  Lemma dispatch_exact : forall (K Q : pset -> Prop) X b t rg fin int,
    closedU K -> closedS Q ->
    wf rg -> real_set rg -> in_range t rg ->
    (forall vs r, wf_b (BReal vs) -> Q (PB (BReal vs)) ->
       (forall v, bmem v (BReal vs) -> mem v rg) -> fin vs = Ok r -> exactK K X b t (PB (BReal vs)) r) ->
    (forall i r, wf_iv i -> Q (PB (BInt i)) -> (forall v, bmem v (BInt i) -> mem v rg) -> int i = Ok r ->
       exactK K X b t (PB (BInt i)) r) ->
    forall n s r, wf s -> Q s ->
      dispatch io n (Ok rg) fin int s = Ok r -> exactK K X b t s r.
  Proof.
    intros K Q X b t rg fin int (K0 & KU) QS Wr Rr IR Hf Hi. induction n as [|n IH]; intros s r Ws Is H; [discriminate|].
    cbn [dispatch bind] in H. inv_bind H. rename r0 into inter.
    apply pand_f in E; auto. destruct E as (A & B & C & D). specialize (C (or_introl Rr)).
    assert (Red : exactK K X b t inter r -> exactK K X b t s r).
    { intros (E1 & E2 & E3). unfold exactK. ands; auto. intros w Rw. rewrite (E3 w Rw).
      split; intros (z & Z1 & Z2); exists z; split; auto.
      - apply B in Z2. tauto.
      - apply B. split; [now apply (IR w)|auto]. }
    assert (Ii : Q inter) by (apply (QS s); auto; intros v Hv; apply D in Hv; tauto).
    assert (Di : forall v, mem v inter -> mem v rg) by (intros v Hv; apply D in Hv; tauto).
    apply Red. clear Red B D Is Ws s.
    destruct inter as [|[vs f|vs|i]|args].
    - injection H as <-. unfold exactK. simpl. ands; auto. intros w _. unfold fm; simpl. split; [tauto|]. intros (z & _ & []).
    - discriminate.
    - apply Hf; auto.
    - apply Hi; auto.
    - inv_bind H. apply mapM_Forall2 in E.
      simpl in C. pose proof A as A'. apply wf_union_iff in A'. destruct A' as ((Wa & _) & _).
      assert (G : Forall2 (fun a x => exactK K X b t (PB a) x) args r0).
      { assert (Ia : forall a, In a args -> Q (PB a)).
        { intros a Ha. apply (QS _ _ Ii). intros v Hv. exists a. auto. }
        clear -E Wa IH Ia. revert r0 E. induction args as [|a args IHa]; intros r0 E; simpl in E; inversion E; subst; constructor.
        - inversion Wa; subst. apply IH; auto. apply Ia; simpl; auto.
        - inversion Wa; subst. apply IHa; auto. intros c Hc. apply Ia; simpl; auto. }
      assert (W0 : Forall wf r0).
      { clear -G. induction G as [|? ? ? ? (GG & _)]; constructor; auto. }
      assert (K1 : Forall K r0).
      { clear -G. induction G as [|? ? ? ? (_ & GG & _)]; constructor; auto. }
      pose proof (KU _ _ W0 K1 H) as KR.
      apply make_union_f in H; auto. destruct H as (U1 & U2 & _ & _). unfold exactK. ands; auto.
      intros w Rw. rewrite U2. clear -G Rw. split.
      + intros (x & Hx & Hm). induction G as [|a y args r0 Hy G IH]; [destruct Hx|].
        destruct Hx as [<-|Hx].
        * apply Hy in Hm; auto. destruct Hm as (z & Z1 & Z2). exists z. split; auto. exists a. simpl. auto.
        * destruct (IH Hx) as (z & Z1 & (c & Hc & Z2)). exists z. split; auto. exists c. simpl; auto.
      + intros (z & Z1 & (a & Ha & Z2)). induction G as [|c y args r0 Hy G IH]; [destruct Ha|].
        destruct Ha as [<-|Ha].
        * exists y. split; [simpl; auto|]. apply Hy; eauto.
        * destruct IH as (x & Hx & Hm); auto. exists x. simpl; auto.
  Qed.
  Lemma closedU_real : closedU real_set.
  Proof. split; [exact I|]. intros l r W R H. apply make_union_f in H; auto. tauto. Qed.
  Lemma closedU_any : closedU (fun _ => True).
  Proof. split; auto. Qed.
  Lemma closedS_inf : forall b : bool, closedS (fun s => b = false -> inffree s).
  Proof. intros b s s' H D Eb x Hx. apply (H Eb). now apply D. Qed.

  (** A unary operation on numbers. *)
  Lemma op_exact : forall X f finv (int : interval N -> res pset) b b' (t u : tr) rg (sing : R -> Prop),
    wf rg -> real_set rg -> in_range t rg ->
    (forall w, teval t w = num_op f (teval u w)) ->
    (forall w, regular b t w -> regular b' u w) ->
    (forall w z, regular b t w -> b = true -> teval u w = Some (FNum z) -> ~ sing z) ->
    (forall s r, wf s -> (b' = false -> inffree s) -> invert u s = Ok r -> exact X b' u s r) ->
    (forall y s, finv y = Ok s -> mem (RNum (eR y)) rg -> wf s /\ real_set s /\
       (b' = false -> (b = false -> exists c, y = Fin c) -> inffree s) /\
       forall z, ((exists c, y = Fin c) \/ ~ sing z) ->
         (fm (FNum z) s <-> exists c, y = Fin c /\ f z = Some (toR c))) ->
    (forall i zs, wf_iv i -> (forall v, bmem v (BInt i) -> mem v rg) -> int i = Ok zs ->
       wf zs /\ real_set zs /\ inffree zs /\
       forall z, fm (FNum z) zs <-> exists y, f z = Some y /\ fm (FNum y) (PB (BInt i))) ->
    forall n s r, wf s -> (b = false -> inffree s) ->
      dispatch io n (Ok rg) (fun vs => do zs <- finv_all io finv vs; invert u zs)
        (fun i => do zs <- int i; invert u zs) s = Ok r ->
      exact X b t s r.
  Proof.
    intros X f finv int b b' t u rg sing Wr Rr IR Ht Hreg Hsing Hu Hfinv Hint.
    assert (Lift : forall zs s r, wf zs -> real_set zs -> (b' = false -> inffree zs) ->
      (forall z w, regular b t w -> teval u w = Some (FNum z) ->
         (fm (FNum z) zs <-> exists y, f z = Some y /\ fm (FNum y) s)) ->
      invert u zs = Ok r -> exact X b t s r).
    { intros zs s r Wz Rz Iz Hz H. apply Hu in H; auto. destruct H as (A & B & C).
      unfold exact, exactK. ands; auto. intros w Rw. rewrite (C w (Hreg w Rw)). split.
      - intros (z & Z1 & Z2). apply (Hz z w Rw Z1) in Z2. destruct Z2 as (y & Y1 & Y2). exists y.
        rewrite Ht, Z1. simpl. now rewrite Y1.
      - intros (y & Y1 & Y2). rewrite Ht in Y1. destruct (teval u w) as [[z|]|] eqn:Eu; try discriminate.
        simpl in Y1. destruct (f z) as [y'|] eqn:Ef; [|discriminate]. injection Y1 as <-.
        exists z. split; auto. apply (Hz z w Rw Eu). eauto. }
    apply (dispatch_exact real_set (fun s => b = false -> inffree s)); auto using closedU_real, closedS_inf.
    - intros vs r Wv Iv Dv H. inv_bind H. rename r0 into zs. unfold finv_all in E. inv_bind E.
      apply mapM_Forall2 in E0. rename r0 into ss.
      assert (G : Forall2 (fun y s => wf s /\ real_set s /\ (b' = false -> inffree s) /\
        forall z, ((exists c, y = Fin c) \/ ~ sing z) ->
         (fm (FNum z) s <-> exists c, y = Fin c /\ f z = Some (toR c))) vs ss).
      { assert (Dv' : forall y, In y vs -> mem (RNum (eR y)) rg /\ (b = false -> exists c, y = Fin c)).
        { intros y Hy. split; [apply Dv; exists y; auto|]. intros Eb. specialize (Iv Eb (eR y)).
          destruct Iv as (q & Hq); [exists y; auto|]. destruct y as [|c|]; try discriminate. eauto. }
        clear -E0 Dv' Hfinv. induction E0 as [|y s vs ss Hs E0 IH]; constructor.
        - destruct (Dv' y (or_introl eq_refl)) as (D1 & D2). apply Hfinv in Hs; auto.
          destruct Hs as (S1 & S2 & S3 & S4). ands; auto.
        - apply IH. intros c Hc. apply Dv'. now right. }
      clear E0. assert (Ws : Forall wf ss) by (clear -G; induction G as [|? ? ? ? (K & _)]; constructor; auto).
      apply make_union_f in E; auto. destruct E as (U1 & U2 & U3 & U4).
      apply (Lift zs (PB (BReal vs)) r); auto.
      + apply U3. clear -G; induction G as [|? ? ? ? (_ & K & _)]; constructor; auto.
      + intros Eb x Hx. apply U4 in Hx. destruct Hx as (q & Hq & Hx).
        clear -G Hq Hx Eb. induction G as [|? ? ? ? (_ & _ & K & _)]; [destruct Hq|].
        destruct Hq as [<-|Hq]; [now apply (K Eb)|auto].
      + intros z w Rw Eu. rewrite U2.
        assert (NS : forall y, In y vs -> (exists c, y = Fin c) \/ ~ sing z).
        { intros y Hy. destruct b eqn:Eb; [right; eauto|left]. specialize (Iv eq_refl (eR y)).
          destruct Iv as (q & Hq); [exists y; auto|]. destruct y as [|c|]; try discriminate. eauto. }
        clear -G NS. split.
        * intros (q & Hq & Hz). induction G as [|y q' vs ss (_ & _ & _ & K) G IH]; [destruct Hq|].
          destruct Hq as [->|Hq].
          -- apply K in Hz; [|apply NS; now left]. destruct Hz as (c & -> & Hc). exists (toR c). split; auto.
             apply BReal_fm. now left.
          -- destruct IH as (y' & Y1 & Y2); auto; [intros; apply NS; now right|]. exists y'. split; auto.
             apply BReal_fm in Y2. apply BReal_fm. now right.
        * intros (y' & Y1 & Y2). apply BReal_fm in Y2. induction G as [|y q' vs ss (_ & _ & _ & K) G IH]; [destruct Y2|].
          destruct Y2 as [Y2|Y2].
          -- exists q'. split; [now left|]. apply K; [apply NS; now left|].
             destruct y as [|c|]; try discriminate. injection Y2 as <-. eauto.
          -- destruct IH as (q & Hq & Hz); auto; [intros; apply NS; now right|]. exists q. split; auto. now right.
    - intros i r Wi _ Di H. inv_bind H. rename r0 into zs. destruct (Hint i zs Wi Di E) as (A & B & C & D).
      apply (Lift zs (PB (BInt i)) r); auto.
  Qed.

  (** ** Membership of numbers in the ranges *)

  Lemma ExtReals_f : wf (ExtReals (N:=N)) /\ real_set (ExtReals (N:=N)) /\ forall x, mem (RNum x) (ExtReals (N:=N)).
  Proof.
    ands.
    - apply ExtReals_wf.
    - simpl. repeat constructor.
    - intros x. unfold ExtReals. simpl. destruct x as [|x|].
      + exists (BReal [NInf; PInf]). simpl. split; auto. exists NInf. auto.
      + exists (BInt (mkIv NInf PInf true true)). simpl. split; auto. unfold iv_mem. simpl. auto.
      + exists (BReal [NInf; PInf]). simpl. split; auto. exists PInf. auto.
  Qed.
  Lemma nint0 : toR (@nint N 0) = 0. Proof. apply nint_ok. Qed.
  Lemma nint1 : toR (@nint N 1) = 1. Proof. apply nint_ok. Qed.
  Lemma ExtRealsPos_f : wf (ExtRealsPos (N:=N)) /\ real_set (ExtRealsPos (N:=N)) /\
    (forall x, mem (RNum (Fin x)) (ExtRealsPos (N:=N)) <-> 0 <= x) /\
    mem (RNum PInf) (ExtRealsPos (N:=N)) /\ ~ mem (RNum NInf) (ExtRealsPos (N:=N)).
  Proof.
    ands.
    - apply ExtRealsPos_wf.
    - simpl. repeat constructor.
    - intros x. unfold ExtRealsPos. simpl. split.
      + intros (b & [<-|[<-|[]]] & H); simpl in H.
        * destruct H as (y & [<-|[]] & H). discriminate.
        * destruct H as (H & _). simpl in H. rewrite nint0 in H. destruct H as [H|H]; [simpl in H; lra|injection H; lra].
      + intros H. exists (BInt (mkIv n0 PInf false true)). split; auto. unfold bmem, iv_mem. simpl.
        split; [|auto]. unfold ele. rewrite nint0. destruct (Req_dec 0 x); [right; congruence|left; simpl; lra].
    - exists (BReal [PInf]). simpl. split; auto. exists PInf. auto.
    - intros (b & [<-|[<-|[]]] & H); simpl in H.
      + destruct H as (y & [<-|[]] & H). discriminate.
      + destruct H as (H & _). simpl in H. destruct H as [H|H]; [exact H|discriminate].
  Qed.

  Lemma contains_rg : forall y rg b, wf rg -> real_set rg -> contains io (VNum y) rg = Ok b ->
    mem (RNum (eR y)) rg -> b = true.
  Proof. intros y rg b W R H M. apply (contains_ok io (VNum y) rg b) in H; auto. now apply H. Qed.

  Lemma FR1_f : forall y s, FiniteReal (N:=N) [y] = Ok s -> wf s /\ real_set s /\ s = PB (BReal [y]) /\
    (forall x, mem (RNum x) s <-> x = eR y).
  Proof.
    intros y s H. pose proof H as H'. apply FiniteReal_f in H. destruct H as (A & B & _ & C).
    cbn [FiniteReal is_nil negb passert bind dedup inb existsb] in H'. unfold FiniteReal in H'. simpl in H'.
    injection H' as <-. ands; auto. intros x. rewrite C. simpl. split; [intros [<-|[]]; auto|auto].
  Qed.

  Lemma iv_nonneg : forall i, wf_iv (N:=N) i -> (forall v, bmem v (BInt i) -> mem v (ExtRealsPos (N:=N))) ->
    (exists a, iv_a i = Fin a /\ 0 <= toR a).
  Proof.
    intros i Wi D. destruct ExtRealsPos_f as (_ & _ & P & _ & _).
    assert (G : forall x, fm (FNum x) (PB (BInt i)) -> 0 <= x) by (intros x Hx; apply P, D, Hx).
    destruct i as [a b lo ro]. destruct Wi as (L & Wl & Wr). simpl in *.
    assert (M : forall x, above (N:=N) a true x -> below (N:=N) b true x -> 0 <= x).
    { intros x Ha Hb. apply G, strictly_fm. split; auto. }
    destruct a as [|a|], b as [|b|]; simpl in L; try tauto.
    - specialize (M (Rmin (toR b) 0 - 1)). simpl in M. pose proof (Rmin_l (toR b) 0). pose proof (Rmin_r (toR b) 0).
      assert (0 <= Rmin (toR b) 0 - 1) by (apply M; auto; lra). lra.
    - specialize (M (-1)). simpl in M. assert (0 <= -1) by (apply M; auto). lra.
    - exists a. split; auto. destruct (Rle_dec 0 (toR a)); auto. exfalso.
      specialize (M ((toR a + Rmin (toR b) 0) / 2)). simpl in M. pose proof (Rmin_l (toR b) 0). pose proof (Rmin_r (toR b) 0).
      assert (toR a < Rmin (toR b) 0) by (apply Rmin_glb_lt; lra).
      assert (0 <= (toR a + Rmin (toR b) 0) / 2) by (apply M; lra). lra.
    - exists a. split; auto. destruct (Rle_dec 0 (toR a)); auto. exfalso.
      specialize (M (toR a / 2)). simpl in M. assert (0 <= toR a / 2) by (apply M; auto; lra). lra.
  Qed.

  Lemma eltb_R2 : forall a b : num, elt (eR (Fin a)) (eR (Fin b)) <-> toR a < toR b.
  Proof. simpl. tauto. Qed.

  (** the interval rebuilt by transform_interval *)
  Lemma tinterval : forall i a b flip j, transform_interval (N:=N) i a b flip = Ok j ->
    wf_iv j /\ iv_a j = a /\ iv_b j = b /\
    iv_lo j = ((if flip then iv_ro i else iv_lo i) || is_ninf a)%bool /\
    iv_ro j = ((if flip then iv_lo i else iv_ro i) || is_pinf b)%bool.
  Proof.
    intros i a b flip j H. unfold transform_interval in H. destruct flip;
    pose proof (Interval_wf _ _ _ _ _ H) as W; apply Interval_fin in H; destruct H as (_ & ->); ands; auto.
  Qed.
  Lemma above_inf : forall a (o : bool) x, above (N:=N) a (o || is_ninf a) x <-> above a o x.
  Proof. intros [|a|] [] x; simpl; tauto. Qed.
  Lemma below_inf : forall b (o : bool) x, below (N:=N) b (o || is_pinf b) x <-> below b o x.
  Proof. intros [|a|] [] x; simpl; tauto. Qed.
  Lemma tinterval_fm : forall i a b flip j x, transform_interval (N:=N) i a b flip = Ok j ->
    (fm (FNum x) (PB (BInt j)) <-> above a (if flip then iv_ro i else iv_lo i) x /\ below b (if flip then iv_lo i else iv_ro i) x).
  Proof.
    intros i a b flip j x H. apply tinterval in H. destruct H as (_ & A & B & C & D).
    rewrite iv_fm, A, B, C, D, above_inf, below_inf. reflexivity.
  Qed.

  (** shape of an injective inverse interval *)
  Lemma inj_interval_shape : forall finv i zs, inj_interval (N:=N) finv i = Ok zs ->
    exists a b sa sb j, finv (iv_a i) = Ok sa /\ the_element sa = Ok a /\ finv (iv_b i) = Ok sb /\ the_element sb = Ok b /\
      transform_interval i a b false = Ok j /\ zs = PB (BInt j).
  Proof.
    intros finv i zs H. unfold inj_interval in H. inv_bind H. inv_bind H. inv_bind H. inv_bind H. inv_bind H.
    injection H as <-. do 5 eexists. ands; eauto.
  Qed.

  (** *** Radical *)
  Lemma finv_radical_eq : forall d y s, finv_radical io d y = Ok s -> mem (RNum (eR y)) (ExtRealsPos (N:=N)) ->
    s = PB (BReal [match y with Fin a => Fin (npow_nat a (Pos.to_nat d)) | _ => y end]).
  Proof.
    intros d y s H M. unfold finv_radical in H. inv_bind H.
    destruct ExtRealsPos_f as (W & R & _ & _ & Nn).
    apply contains_rg in E; auto. subst r. simpl in H. destruct y as [|a|].
    - now destruct Nn.
    - now apply FR1_f in H.
    - now apply FR1_f in H.
  Qed.
  Lemma BReal1 : forall y, wf (PB (BReal (N:=N) [y])) /\ real_set (PB (BReal (N:=N) [y])) /\
    (forall x, mem (RNum x) (PB (BReal [y])) <-> x = eR y) /\ ((exists c, y = Fin c) -> inffree (PB (BReal [y]))).
  Proof.
    intros y. ands; simpl; auto.
    - split; [repeat constructor; simpl; tauto|discriminate].
    - intros x. split; [intros (z & [<-|[]] & <-); auto|intros ->; exists y; auto].
    - intros (c & ->) x (z & [<-|[]] & <-). simpl. eauto.
  Qed.

  Lemma pow_ends : forall n a x (o : bool), 0 <= a -> 0 <= x ->
    ((if o then a < x else a <= x) <-> (if o then a ^ S n < x ^ S n else a ^ S n <= x ^ S n)).
  Proof. intros n a x [] Ha Hx; [now apply pow_lt_iff|now apply pow_le_iff]. Qed.

  Lemma radical_fin : forall d y s, finv_radical io d y = Ok s -> mem (RNum (eR y)) (ExtRealsPos (N:=N)) ->
    wf s /\ real_set s /\ ((exists c, y = Fin c) -> inffree s) /\
    forall z, fm (FNum z) s <-> exists c, y = Fin c /\ f_root d z = Some (toR c).
  Proof.
    intros d y s H M. apply finv_radical_eq in H; auto. subst s.
    destruct (BReal1 (match y with Fin a => Fin (npow_nat a (Pos.to_nat d)) | _ => y end)) as (A & B & C & D). ands; auto.
    - intros (c & ->). apply D. eauto.
    - intros z. unfold fm. simpl inj. rewrite C. destruct y as [|a|]; simpl.
      + split; [discriminate|]. intros (c & E & _). discriminate.
      + simpl in M. destruct ExtRealsPos_f as (_ & _ & P & _ & _). apply P in M. rewrite npow_nat_ok.
        split.
        * intros [= ->]. exists a. split; auto. apply f_root_iff. ands; auto. now apply pow_le.
        * intros (c & [= <-] & Hc). apply f_root_iff in Hc. destruct Hc as (_ & _ & ->). reflexivity.
      + split; [discriminate|]. intros (c & E & _). discriminate.
  Qed.
  Lemma radical_int : forall d i zs, wf_iv i -> (forall v, bmem v (BInt i) -> mem v (ExtRealsPos (N:=N))) ->
    inj_interval (finv_radical io d) i = Ok zs ->
    wf zs /\ real_set zs /\ inffree zs /\
    forall z, fm (FNum z) zs <-> exists y, f_root d z = Some y /\ fm (FNum y) (PB (BInt i)).
  Proof.
    intros d i zs Wi Di H. destruct (iv_nonneg i Wi Di) as (a & Ea & Pa).
    destruct ExtRealsPos_f as (_ & _ & P & Pinf & _).
    apply inj_interval_shape in H. destruct H as (a' & b' & sa & sb & j & H1 & H2 & H3 & H4 & H5 & ->).
    rewrite Ea in H1. apply finv_radical_eq in H1; [|simpl; now apply P]. subst sa. simpl in H2. injection H2 as <-.
    assert (Wj : wf_iv j) by (apply tinterval in H5; tauto).
    destruct (Pos2Nat.is_succ d) as (n & En).
    assert (Bb : mem (RNum (eR (iv_b i))) (ExtRealsPos (N:=N))).
    { destruct Wi as (L & _). rewrite Ea in L. destruct (iv_b i) as [|b|]; simpl in L; [tauto| |exact Pinf].
      simpl. apply P. lra. }
    apply finv_radical_eq in H3; auto. subst sb. simpl in H4. injection H4 as <-.
    ands; simpl; auto; [now apply iv_inffree|].
    intros z. rewrite (tinterval_fm _ _ _ _ _ z H5). simpl.
    rewrite npow_nat_ok, En. split.
    - intros (A & B). assert (Z : 0 <= z).
      { pose proof (pow_le (toR a) (S n) Pa). destruct (iv_lo i); lra. }
      destruct (f_root d z) as [y|] eqn:Ey.
      + exists y. split; auto. apply f_root_iff in Ey. rewrite En in Ey. destruct Ey as (_ & Py & <-).
        apply iv_fm. rewrite Ea. simpl. split; [now apply (pow_ends n)|].
        destruct (iv_b i) as [|b|]; cbn [below] in *; auto. apply P in Bb. rewrite npow_nat_ok in B.
        destruct (iv_ro i); [now apply (pow_lt_iff n)|now apply (pow_le_iff n)].
      + exfalso. unfold f_root in Ey. destruct (Rlt_dec z 0); [lra|]. destruct (Req_EM_T z 0); discriminate.
    - intros (y & Ey & Hy). apply f_root_iff in Ey. rewrite En in Ey. destruct Ey as (_ & Py & <-).
      apply iv_fm in Hy. rewrite Ea in Hy. simpl in Hy. destruct Hy as (A & B). split; [exact (proj1 (pow_ends n _ _ _ Pa Py) A)|].
      destruct (iv_b i) as [|b|]; cbn [below] in *; auto. apply P in Bb. rewrite npow_nat_ok.
      destruct (iv_ro i); [now apply (proj1 (pow_lt_iff n _ _ Py Bb))|now apply (proj1 (pow_le_iff n _ _ Py Bb))].
  Qed.

  (** *** Exponential *)
  Lemma finv_exp_eq : forall b y s, 1 < toR b -> finv_exp io b y = Ok s -> mem (RNum (eR y)) (ExtRealsPos (N:=N)) ->
    exists e, s = PB (BReal [e]) /\
      match y with
      | PInf => e = PInf
      | Fin a => (toR a = 0 /\ e = NInf) \/ (0 < toR a /\ exists c, e = Fin c /\ Rpower (toR b) (toR c) = toR a)
      | NInf => False
      end.
  Proof.
    intros b y s Hb H M. unfold finv_exp in H. inv_bind H.
    destruct ExtRealsPos_f as (W & R & P & _ & Nn).
    apply contains_rg in E; auto. subst r. simpl in H. destruct y as [|a|].
    - now destruct Nn.
    - simpl in M. apply P in M. destruct (nleb a (nint 0)) eqn:Ea.
      + apply nleb_ok in Ea. rewrite nint0 in Ea. apply FR1_f in H. exists NInf. split; [tauto|]. left. split; [lra|auto].
      + assert (0 < toR a).
        { destruct (Rle_dec (toR a) 0) as [L|]; [|lra]. exfalso.
          rewrite <- nint0 in L. apply nleb_ok in L. congruence. }
        destruct (neqb b (nint 1)) eqn:Eb; [discriminate|].
        destruct (nlog b a) as [c|] eqn:El; [|discriminate]. apply FR1_f in H.
        exists (Fin c). split; [tauto|]. right. split; auto. exists c. split; auto.
        apply (nlog_ok N b a c); auto; lra.
    - apply FR1_f in H. exists PInf. split; [tauto|auto].
  Qed.
  Lemma exp_fin : forall b y s, 1 < toR b -> finv_exp io b y = Ok s -> mem (RNum (eR y)) (ExtRealsPos (N:=N)) ->
    wf s /\ real_set s /\
    forall z, fm (FNum z) s <-> exists c, y = Fin c /\ f_exp (toR b) z = Some (toR c).
  Proof.
    intros b y s Hb H M. apply finv_exp_eq in H; auto. destruct H as (e & -> & H).
    destruct (BReal1 e) as (A & B & C & _). ands; auto.
    intros z. unfold fm. simpl inj. rewrite C. unfold f_exp. pose proof (Rpower_pos (toR b) z). destruct y as [|a|].
    - tauto.
    - destruct H as [(Ha & ->)|(Ha & c & -> & Hc)]; simpl.
      + split; [discriminate|]. intros (c & [= <-] & [= Hc]). lra.
      + split; [intros [= ->]; exists a; split; auto; congruence|]. intros (c' & [= <-] & [= Hc']).
        f_equal. apply (Rpower_inj (toR b)); auto. congruence.
    - subst e. simpl. split; [discriminate|]. intros (c & E & _). discriminate.
  Qed.
  Lemma exp_int : forall b i zs, 1 < toR b -> wf_iv i -> (forall v, bmem v (BInt i) -> mem v (ExtRealsPos (N:=N))) ->
    inj_interval (finv_exp io b) i = Ok zs ->
    wf zs /\ real_set zs /\ inffree zs /\
    forall z, fm (FNum z) zs <-> exists y, f_exp (toR b) z = Some y /\ fm (FNum y) (PB (BInt i)).
  Proof.
    intros b i zs Hb Wi Di H. destruct (iv_nonneg i Wi Di) as (a & Ea & Pa).
    destruct ExtRealsPos_f as (_ & _ & P & Pinf & _).
    apply inj_interval_shape in H. destruct H as (a' & b' & sa & sb & j & H1 & H2 & H3 & H4 & H5 & ->).
    rewrite Ea in H1. apply finv_exp_eq in H1; [|auto|simpl; now apply P]. destruct H1 as (e & -> & He).
    simpl in H2. injection H2 as <-.
    assert (Wj : wf_iv j) by (apply tinterval in H5; tauto).
    assert (Bb : mem (RNum (eR (iv_b i))) (ExtRealsPos (N:=N))).
    { destruct Wi as (L & _). rewrite Ea in L. destruct (iv_b i) as [|c|]; simpl in L; [tauto| |exact Pinf].
      simpl. apply P. lra. }
    apply finv_exp_eq in H3; auto. destruct H3 as (e' & -> & He'). simpl in H4. injection H4 as <-.
    ands; simpl; auto; [now apply iv_inffree|].
    intros z. rewrite (tinterval_fm _ _ _ _ _ z H5). simpl. unfold f_exp. pose proof (Rpower_pos (toR b) z) as Pz.
    assert (Low : above e (iv_lo i) z <-> above (iv_a i) (iv_lo i) (Rpower (toR b) z)).
    { rewrite Ea. destruct He as [(A0 & ->)|(A0 & c & -> & Hc)]; simpl.
      - rewrite A0. split; [intros _; destruct (iv_lo i); lra|auto].
      - rewrite <- Hc. pose proof (Rpower_lt_iff (toR b) (toR c) z Hb) as Q1.
        pose proof (Rpower_lt_iff (toR b) z (toR c) Hb) as Q2. destruct (iv_lo i); [exact Q1|].
        split; intros; apply Rnot_lt_le; intros L; apply Q2 in L; lra. }
    assert (Up : below e' (iv_ro i) z <-> below (iv_b i) (iv_ro i) (Rpower (toR b) z)).
    { destruct Wi as (L & _). rewrite Ea in L.
      destruct (iv_b i) as [|q|]; [tauto| |subst e'; simpl; tauto]. simpl in L.
      destruct He' as [(A0 & ->)|(A0 & c & -> & Hc)]; simpl; [exfalso; lra|].
      rewrite <- Hc. pose proof (Rpower_lt_iff (toR b) (toR c) z Hb) as Q1.
      pose proof (Rpower_lt_iff (toR b) z (toR c) Hb) as Q2. destruct (iv_ro i); [exact Q2|].
      split; intros; apply Rnot_lt_le; intros L'; apply Q1 in L'; lra. }
    rewrite Low, Up. split.
    - intros H. exists (Rpower (toR b) z). split; auto. now apply iv_fm.
    - intros (y & [= <-] & Hy). now apply iv_fm in Hy.
  Qed.

  (** *** Logarithm *)
  Lemma finv_log_eq : forall b y s, 1 < toR b -> finv_log io b y = Ok s ->
    exists e, s = PB (BReal [e]) /\
      match y with
      | PInf => e = PInf
      | Fin a => exists c, e = Fin c /\ toR c = Rpower (toR b) (toR a)
      | NInf => e = Fin (nint 0)
      end.
  Proof.
    intros b y s Hb H. unfold finv_log in H. inv_bind H.
    destruct ExtReals_f as (W & R & P).
    apply contains_rg in E; auto. subst r. simpl in H. destruct y as [|a|].
    - apply FR1_f in H. exists (Fin (nint 0)). split; [tauto|auto].
    - destruct (npow b a) as [c|] eqn:El; [|discriminate]. apply FR1_f in H. exists (Fin c). split; [tauto|].
      exists c. split; auto. apply (npow_ok N b a c); auto. lra.
    - apply FR1_f in H. exists PInf. split; [tauto|auto].
  Qed.
  Lemma log_fin : forall b y s, 1 < toR b -> finv_log io b y = Ok s ->
    wf s /\ real_set s /\ ((exists c, y = Fin c) -> inffree s) /\
    forall z, ((exists c, y = Fin c) \/ z <> 0) ->
      (fm (FNum z) s <-> exists c, y = Fin c /\ f_log (toR b) z = Some (toR c)).
  Proof.
    intros b y s Hb H. apply finv_log_eq in H; auto. destruct H as (e & -> & H).
    destruct (BReal1 e) as (A & B & C & D). ands; auto.
    - intros (c & ->). apply D. destruct H as (q & -> & _). eauto.
    - intros z Hz. unfold fm. simpl inj. rewrite C. destruct y as [|a|].
      + subst e. simpl. rewrite nint0. destruct Hz as [(c & E)|Hz]; [discriminate|].
        split; [intros [= ->]; lra|]. intros (c & E & _). discriminate.
      + destruct H as (c & -> & Hc). simpl. split.
        * intros [= ->]. exists a. split; auto. apply f_log_iff; auto.
        * intros (c' & [= <-] & Hc'). apply f_log_iff in Hc'; auto. congruence.
      + subst e. simpl. split; [discriminate|]. intros (c & E & _). discriminate.
  Qed.
  Lemma log_int : forall b i zs, 1 < toR b -> wf_iv i -> inj_interval (finv_log io b) i = Ok zs ->
    wf zs /\ real_set zs /\ inffree zs /\
    forall z, fm (FNum z) zs <-> exists y, f_log (toR b) z = Some y /\ fm (FNum y) (PB (BInt i)).
  Proof.
    intros b i zs Hb Wi H.
    apply inj_interval_shape in H. destruct H as (a' & b' & sa & sb & j & H1 & H2 & H3 & H4 & H5 & ->).
    apply finv_log_eq in H1; auto. destruct H1 as (e & -> & He). simpl in H2. injection H2 as <-.
    apply finv_log_eq in H3; auto. destruct H3 as (e' & -> & He'). simpl in H4. injection H4 as <-.
    assert (Wj : wf_iv j) by (apply tinterval in H5; tauto).
    ands; simpl; auto; [now apply iv_inffree|].
    destruct Wi as (L & Wl & Wr).
    assert (Low : forall y, above e (iv_lo i) (Rpower (toR b) y) <-> above (iv_a i) (iv_lo i) y).
    { intros y. destruct (iv_a i) as [|a|].
      - subst e. rewrite (Wl eq_refl). simpl. rewrite nint0. pose proof (Rpower_pos (toR b) y). tauto.
      - destruct He as (c & -> & Hc). simpl. rewrite Hc.
        pose proof (Rpower_lt_iff (toR b) (toR a) y Hb) as Q1.
        pose proof (Rpower_lt_iff (toR b) y (toR a) Hb) as Q2. destruct (iv_lo i); [tauto|].
        split; intros; apply Rnot_lt_le; intros L'; apply Q2 in L'; lra.
      - simpl in L. destruct (iv_b i); simpl in L; tauto. }
    assert (Up : forall y, below e' (iv_ro i) (Rpower (toR b) y) <-> below (iv_b i) (iv_ro i) y).
    { intros y. destruct (iv_b i) as [|q|].
      - simpl in L. destruct (iv_a i); simpl in L; tauto.
      - destruct He' as (c & -> & Hc). simpl. rewrite Hc.
        pose proof (Rpower_lt_iff (toR b) (toR q) y Hb) as Q1.
        pose proof (Rpower_lt_iff (toR b) y (toR q) Hb) as Q2. destruct (iv_ro i); [tauto|].
        split; intros; apply Rnot_lt_le; intros L'; apply Q1 in L'; lra.
      - subst e'. simpl. tauto. }
    intros z. rewrite (tinterval_fm _ _ _ _ _ z H5). simpl. split.
    - intros (A & B). assert (Pz : 0 < z).
      { destruct (iv_a i) as [|a|].
        - subst e. rewrite (Wl eq_refl) in A. simpl in A. rewrite nint0 in A. exact A.
        - destruct He as (c & -> & Hc). simpl in A. pose proof (Rpower_pos (toR b) (toR a)). rewrite Hc in A.
          destruct (iv_lo i); lra.
        - simpl in L. destruct (iv_b i); simpl in L; tauto. }
      destruct (f_log (toR b) z) as [y|] eqn:Ey.
      + exists y. split; auto. apply f_log_iff in Ey; auto. subst z. apply iv_fm.
        split; [now apply Low|now apply Up].
      + exfalso. unfold f_log in Ey. destruct (Rlt_dec 0 z); [discriminate|lra].
    - intros (y & Ey & Hy). apply f_log_iff in Ey; auto. subst z. apply iv_fm in Hy. destruct Hy.
      split; [now apply Low|now apply Up].
  Qed.

  (** *** Abs *)
  Lemma eneg_R : forall a : num, toR (nopp a) = - toR a. Proof. apply nopp_ok. Qed.
  Lemma abs_fin : forall y s, finv_abs io y = Ok s -> mem (RNum (eR y)) (ExtRealsPos (N:=N)) ->
    wf s /\ real_set s /\ ((exists c, y = Fin c) -> inffree s) /\
    forall z, fm (FNum z) s <-> exists c, y = Fin c /\ Some (Rabs z) = Some (toR c).
  Proof.
    intros y s H M. unfold finv_abs in H. inv_bind H. destruct ExtRealsPos_f as (W & R & P & _ & Nn).
    apply contains_rg in E; auto. subst r. simpl in H. apply FiniteReal_f in H.
    destruct H as (A & B & _ & C). ands; auto.
    - intros (c & ->) x Hx. apply C in Hx. simpl in Hx. destruct Hx as [<-|[<-|[]]]; eauto.
    - intros z. unfold fm. simpl inj. rewrite C. destruct y as [|a|]; simpl.
      + split; [intros [H|[H|[]]]; discriminate|]. intros (c & E & _). discriminate.
      + simpl in M. apply P in M. rewrite nopp_ok. split.
        * intros [[= <-]|[[= <-]|[]]]; exists a; split; auto; f_equal; [rewrite Rabs_pos_eq|rewrite Rabs_Ropp, Rabs_pos_eq]; auto.
        * intros (c & [= <-] & [= Hc]). unfold Rabs in Hc. destruct (Rcase_abs z); [right; left|left]; f_equal; lra.
      + split; [intros [H|[H|[]]]; discriminate|]. intros (c & E & _). discriminate.
  Qed.
  Lemma abs_int : forall i zs, wf_iv i -> (forall v, bmem v (BInt i) -> mem v (ExtRealsPos (N:=N))) ->
    abs_interval io i = Ok zs ->
    wf zs /\ real_set zs /\ inffree zs /\
    forall z, fm (FNum z) zs <-> exists y, Some (Rabs z) = Some y /\ fm (FNum y) (PB (BInt i)).
  Proof.
    intros i zs Wi Di H. destruct (iv_nonneg i Wi Di) as (a & Ea & Pa).
    unfold abs_interval in H. inv_bind H. inv_bind H. rename r into p, r0 into q.
    assert (Wp : wf_iv p) by (apply tinterval in E; tauto).
    assert (Wq : wf_iv q) by (apply tinterval in E0; tauto).
    apply por_f in H; [|exact Wp|exact Wq]. destruct H as (A & B & C & D). ands; auto.
    - apply C; exact I.
    - intros x Hx. apply D in Hx. destruct Hx as [Hx|Hx]; [exact (iv_inffree _ Wp x Hx)|exact (iv_inffree _ Wq x Hx)].
    - intros z. rewrite B, (tinterval_fm _ _ _ _ _ z E), (tinterval_fm _ _ _ _ _ z E0). simpl.
      assert (Q1 : below (eneg (iv_a i)) (iv_lo i) z <-> above (iv_a i) (iv_lo i) (- z)).
      { rewrite Ea. simpl. rewrite nopp_ok. destruct (iv_lo i); lra. }
      assert (Q2 : above (eneg (iv_b i)) (iv_ro i) z <-> below (iv_b i) (iv_ro i) (- z)).
      { destruct (iv_b i) as [|c|]; simpl; try tauto. rewrite nopp_ok. destruct (iv_ro i); lra. }
      rewrite Q1, Q2.
      assert (Q3 : forall x, above (iv_a i) (iv_lo i) x -> 0 <= x).
      { intros x. rewrite Ea. simpl. destruct (iv_lo i); lra. }
      split.
      + intros [Hz|Hz]; exists (Rabs z); split; auto; apply iv_fm.
        * rewrite Rabs_pos_eq; auto. apply Q3; tauto.
        * assert (0 <= - z) by (apply Q3; tauto). rewrite <- Rabs_Ropp, Rabs_pos_eq; tauto.
      + intros (y & [= <-] & Hy). apply iv_fm in Hy. unfold Rabs in Hy. destruct (Rcase_abs z); tauto.
  Qed.

  (** *** Reciprocal *)
  Lemma range_recip_f : forall rg, range_recip io = Ok rg -> wf rg /\ real_set rg /\ inffree rg /\
    forall x, fm (N:=N) (FNum x) rg <-> x <> 0.
  Proof.
    intros rg H. unfold range_recip in H. inv_bind H. inv_bind H. rename r into l, r0 into r.
    unfold Ropen in E. unfold Lopen in E0.
    pose proof (Interval_wf _ _ _ _ _ E) as Wl. pose proof (Interval_wf _ _ _ _ _ E0) as Wr.
    apply Interval_fin in E, E0. destruct E as (_ & ->), E0 as (_ & ->).
    apply por_f in H; [|exact Wl|exact Wr]. destruct H as (A & B & C & D). ands; auto.
    - apply C; exact I.
    - intros x Hx. apply D in Hx. destruct Hx as [Hx|Hx]; [exact (iv_inffree _ Wl x Hx)|exact (iv_inffree _ Wr x Hx)].
    - intros x. rewrite B, !iv_fm. simpl. rewrite nint0. lra.
  Qed.
  Lemma recip_fin : forall rg y s, range_recip io = Ok rg -> finv_recip io y = Ok s -> mem (RNum (eR y)) rg ->
    wf s /\ real_set s /\ inffree s /\
    forall z, fm (FNum z) s <-> exists c, y = Fin c /\ f_recip z = Some (toR c).
  Proof.
    intros rg y s Hr H M. pose proof Hr as Hr'. apply range_recip_f in Hr'. destruct Hr' as (W & R & I & P).
    unfold finv_recip in H. rewrite Hr in H. cbn [bind] in H. inv_bind H.
    apply contains_rg in E; auto. subst r. cbn [negb] in H.
    destruct (I _ M) as (c & Ec). destruct y as [|a|]; try discriminate. simpl in M.
    assert (Na : toR a <> 0) by (apply (P (toR a)); exact M).
    destruct (neqb a (nint 0)) eqn:Z; [apply neqb_ok in Z; rewrite nint0 in Z; tauto|].
    apply FR1_f in H. destruct H as (A & B & -> & C). destruct (BReal1 (Fin (ninv a))) as (_ & _ & _ & D). ands; auto.
    - apply D. eauto.
    - intros z. unfold fm. simpl inj. rewrite C. simpl. rewrite ninv_ok by auto. split.
      + intros [= ->]. exists a. split; auto. apply f_recip_iff. split; [now apply Rinv_neq_0_compat|].
        rewrite Rinv_inv. auto.
      + intros (c' & [= <-] & Hc). apply f_recip_iff in Hc. destruct Hc as (Z0 & ->). now rewrite Rinv_inv.
  Qed.
  Lemma eleb_fin : forall a b : num, eleb (Fin a) (Fin b) = true <-> toR a <= toR b.
  Proof.
    intros a b. rewrite eleb_pos. unfold pos. rewrite <- ord_le. unfold ele. simpl. split.
    - intros [H|H]; [lra|injection H; lra].
    - intros H. destruct (Req_dec (toR a) (toR b)); [right; congruence|left; lra].
  Qed.
  Lemma eltb_fin : forall a b : num, eltb (Fin a) (Fin b) = true <-> toR a < toR b.
  Proof. intros a b. rewrite eltb_elt. simpl. tauto. Qed.
  Lemma Rinv_lt_iff : forall x y, 0 < x -> 0 < y -> (x < y <-> / y < / x).
  Proof.
    assert (L : forall x y, 0 < x -> 0 < y -> x < y -> / y < / x).
    { intros x y Hx Hy H. apply Rinv_lt_contravar; auto. now apply Rmult_lt_0_compat. }
    intros x y Hx Hy. split; [now apply L|]. intros H. rewrite <- (Rinv_inv x), <- (Rinv_inv y).
    apply L; auto using Rinv_0_lt_compat.
  Qed.
  Lemma Rinv_le_iff : forall x y, 0 < x -> 0 < y -> (x <= y <-> / y <= / x).
  Proof.
    intros x y Hx Hy. pose proof (Rinv_lt_iff y x Hy Hx) as Q.
    split; intros H; apply Rnot_lt_le; intros L; apply Q in L; lra.
  Qed.
  (** comparing reciprocals of negative numbers *)
  Lemma Rinv_neg : forall x, / x = - / (- x).
  Proof. intros x. destruct (Req_dec x 0) as [->|H]; [rewrite Ropp_0, Rinv_0; lra|]. field. lra. Qed.

  Lemma recip_int : forall rg i zs, range_recip io = Ok rg -> wf_iv i -> (forall v, bmem v (BInt i) -> mem v rg) ->
    recip_interval (N:=N) i = Ok zs ->
    wf zs /\ real_set zs /\ inffree zs /\
    forall z, fm (FNum z) zs <-> exists y, f_recip z = Some y /\ fm (FNum y) (PB (BInt i)).
  Proof.
    intros rg i zs Hr Wi Di H. apply range_recip_f in Hr. destruct Hr as (_ & _ & _ & P).
    unfold recip_interval in H. destruct Wi as (L & Wl & Wr).
    destruct i as [a b lo ro]. cbn [iv_a iv_b iv_lo iv_ro] in *.
    destruct (eleb e0 a && eltb a b)%bool eqn:C1.
    - (* right of zero *)
      apply andb_true_iff in C1. destruct C1 as (C1 & C2).
      inv_bind H. inv_bind H. injection H as <-. rename r0 into j. apply passert_Ok in E.
      assert (Wj : wf_iv j) by (apply tinterval in E0; tauto).
      ands; simpl; auto; [now apply iv_inffree|].
      destruct a as [|a|]; [discriminate| |now destruct b; simpl in L].
      unfold e0 in *. apply eleb_fin in C1. rewrite nint0 in C1.
      assert (Pa : 0 < toR a \/ (toR a = 0 /\ lo = true)).
      { destruct (eltb (Fin (nint 0)) (Fin a)) eqn:Z; [left; apply eltb_fin in Z; rewrite nint0 in Z; lra|].
        simpl in E. destruct (Req_dec (toR a) 0); [auto|left; lra]. }
      intros z. rewrite (tinterval_fm _ _ _ _ _ z E0). cbn [iv_lo iv_ro].
      assert (Low : 0 < z -> (above (einv b) ro z <-> below b ro (/ z))).
      { intros Pz. pose proof (Rinv_0_lt_compat z Pz). destruct b as [|b|]; simpl in *; [tauto| |].
        - assert (Pb : 0 < toR b) by lra. rewrite ninv_ok by lra.
          destruct ro; [rewrite (Rinv_lt_iff (/ z) (toR b))|rewrite (Rinv_le_iff (/ z) (toR b))]; auto; rewrite Rinv_inv; tauto.
        - rewrite nint0. destruct ro; split; auto; intros _; lra. }
      assert (Pos : above (einv b) ro z -> 0 < z).
      { destruct b as [|b|]; simpl in *; [tauto| |].
        - assert (Pb : 0 < toR b) by lra. rewrite ninv_ok by lra. pose proof (Rinv_0_lt_compat _ Pb).
          destruct ro; lra.
        - rewrite (Wr eq_refl), nint0. auto. }
      assert (Up : 0 < z -> (below (if eltb (Fin (nint 0)) (Fin a) then einv (Fin a) else PInf) lo z <-> above (Fin a) lo (/ z))).
      { intros Pz. pose proof (Rinv_0_lt_compat z Pz). destruct (eltb (Fin (nint 0)) (Fin a)) eqn:Z.
        - apply eltb_fin in Z. rewrite nint0 in Z. simpl. rewrite ninv_ok by lra.
          destruct lo; [rewrite (Rinv_lt_iff (toR a) (/ z))|rewrite (Rinv_le_iff (toR a) (/ z))]; auto; rewrite Rinv_inv; tauto.
        - simpl. destruct Pa as [Pa|(Pa & ->)]; [|rewrite Pa; tauto].
          exfalso. assert (T : eltb (Fin (nint 0)) (Fin a) = true) by (apply eltb_fin; rewrite nint0; lra). congruence. }
      split.
      + intros (A & B). pose proof (Pos A) as Pz. exists (/ z). split; [apply f_recip_iff; split; [lra|auto]|].
        apply iv_fm. cbn [iv_a iv_b iv_lo iv_ro]. tauto.
      + intros (y & Hy & Hm). apply f_recip_iff in Hy. destruct Hy as (Z0 & ->). apply iv_fm in Hm. cbn [iv_a iv_b iv_lo iv_ro] in Hm.
        assert (Pz : 0 < z).
        { assert (0 < / z).
          { destruct Hm as (Hm & _). simpl in Hm. destruct Pa as [Pa|(Pa & ->)]; [destruct lo; lra|lra]. }
          rewrite <- (Rinv_inv z). now apply Rinv_0_lt_compat. }
        tauto.
    - destruct (eltb a b && eleb b e0)%bool eqn:C2; [|discriminate].
      apply andb_true_iff in C2. destruct C2 as (_ & C2).
      inv_bind H. inv_bind H. injection H as <-. rename r0 into j. apply passert_Ok in E.
      assert (Wj : wf_iv j) by (apply tinterval in E0; tauto).
      ands; simpl; auto; [now apply iv_inffree|].
      destruct b as [|b|]; [now destruct a; simpl in L| |discriminate].
      unfold e0 in *. apply eleb_fin in C2. rewrite nint0 in C2.
      assert (Pb : toR b < 0 \/ (toR b = 0 /\ ro = true)).
      { destruct (eltb (Fin b) (Fin (nint 0))) eqn:Z; [left; apply eltb_fin in Z; rewrite nint0 in Z; lra|].
        simpl in E. destruct (Req_dec (toR b) 0); [auto|left; lra]. }
      intros z. rewrite (tinterval_fm _ _ _ _ _ z E0). cbn [iv_lo iv_ro].
      assert (Inv : forall x y : R, x < 0 -> y < 0 -> (x < y <-> / y < / x) /\ (x <= y <-> / y <= / x)).
      { intros x y Hx Hy. rewrite (Rinv_neg x), (Rinv_neg y).
        pose proof (Rinv_lt_iff (- y) (- x)) as Q1. pose proof (Rinv_le_iff (- y) (- x)) as Q2.
        assert (0 < - y) by lra. assert (0 < - x) by lra.
        specialize (Q1 H H0). specialize (Q2 H H0).
        split; split; intros K.
        - assert (- y < - x) by lra. apply Q1 in H1. lra.
        - assert (/ - x < / - y) by lra. apply Q1 in H1. lra.
        - assert (- y <= - x) by lra. apply Q2 in H1. lra.
        - assert (/ - x <= / - y) by lra. apply Q2 in H1. lra. }
      assert (NegInv : forall x, x < 0 -> / x < 0).
      { intros x Hx. rewrite Rinv_neg. assert (0 < - x) by lra. pose proof (Rinv_0_lt_compat _ H). lra. }
      assert (Up : z < 0 -> (below (einv a) lo z <-> above a lo (/ z))).
      { intros Nz. pose proof (NegInv z Nz). destruct a as [|a|]; simpl in *; [|  |tauto].
        - rewrite nint0. destruct lo; split; auto; intros _; lra.
        - assert (Na : toR a < 0) by lra. rewrite ninv_ok by lra.
          destruct (Inv (toR a) (/ z)) as (Q1 & Q2); auto. rewrite Rinv_inv in Q1, Q2. destruct lo; tauto. }
      assert (Neg : below (einv a) lo z -> z < 0).
      { destruct a as [|a|]; simpl in *; [|  |tauto].
        - rewrite (Wl eq_refl), nint0. auto.
        - assert (Na : toR a < 0) by lra. rewrite ninv_ok by lra. pose proof (NegInv _ Na). destruct lo; lra. }
      assert (Low : z < 0 -> (above (if eltb (Fin b) (Fin (nint 0)) then einv (Fin b) else NInf) ro z <-> below (Fin b) ro (/ z))).
      { intros Nz. pose proof (NegInv z Nz). destruct (eltb (Fin b) (Fin (nint 0))) eqn:Z.
        - apply eltb_fin in Z. rewrite nint0 in Z. simpl. rewrite ninv_ok by lra.
          destruct (Inv (/ z) (toR b)) as (Q1 & Q2); auto. rewrite Rinv_inv in Q1, Q2. destruct ro; tauto.
        - simpl. destruct Pb as [Pb|(Pb & ->)]; [|rewrite Pb; tauto].
          exfalso. assert (T : eltb (Fin b) (Fin (nint 0)) = true) by (apply eltb_fin; rewrite nint0; lra). congruence. }
      split.
      + intros (A & B). pose proof (Neg B) as Nz. exists (/ z). split; [apply f_recip_iff; split; [lra|auto]|].
        apply iv_fm. cbn [iv_a iv_b iv_lo iv_ro]. tauto.
      + intros (y & Hy & Hm). apply f_recip_iff in Hy. destruct Hy as (Z0 & ->). apply iv_fm in Hm. cbn [iv_a iv_b iv_lo iv_ro] in Hm.
        assert (Nz : z < 0).
        { assert (/ z < 0).
          { destruct Hm as (_ & Hm). simpl in Hm. destruct Pb as [Pb|(Pb & ->)]; [destruct ro; lra|lra]. }
          rewrite <- (Rinv_inv z). now apply NegInv. }
        tauto.
  Qed.

  (** *** Poly *)
  Lemma poly_fin : forall cs rg y s, poly_range io po cs = Ok rg -> finv_poly io po cs y = Ok s -> mem (RNum (eR y)) rg ->
    wf s /\ real_set s /\ inffree s /\
    forall z, fm (FNum z) s <-> exists c, y = Fin c /\ Some (Rpoly cs z) = Some (toR c).
  Proof.
    intros cs rg y s Hr H M. pose proof Hr as Hr'. apply poly_range_ok in Hr'. destruct Hr' as (W & R & P).
    unfold finv_poly in H. rewrite Hr in H. cbn [bind] in H. inv_bind H.
    apply contains_rg in E; auto. subst r. cbn [negb] in H.
    destruct (poly_range_inffree io po cs rg Hr _ M) as (x & Ex). destruct y as [|a|]; try discriminate. apply solve_eq_ok in H. destruct H as (A & B & C & D). ands; auto.
    intros z. rewrite D. split.
    - intros E. exists a. now rewrite E.
    - intros (c & [= <-] & [= Hc]). auto.
  Qed.
  Lemma poly_int : forall cs i zs, wf_iv i -> poly_interval io po cs i = Ok zs ->
    wf zs /\ real_set zs /\ inffree zs /\
    forall z, fm (FNum z) zs <-> exists y, Some (Rpoly cs z) = Some y /\ fm (FNum y) (PB (BInt (N:=N) i)).
  Proof.
    intros cs i zs Wi H. unfold poly_interval in H. inv_bind H. inv_bind H. inv_bind H.
    apply solve_ineq_ok in E, E0. destruct E as (A1 & A2 & A3 & A4), E0 as (B1 & B2 & B3 & B4).
    apply pinv_f in E1; auto. destruct E1 as (C1 & C2 & C3 & C4).
    apply pand_f in H; auto. destruct H as (D1 & D2 & D3 & D4). ands; auto.
    - intros x Hx. apply D4 in Hx. apply B3. tauto.
    - intros z. rewrite D2, B4, C3. unfold holds_below, sat.
      assert (F : (exists x, FNum z = FNum x /\ ~ fm (FNum z) r) <-> ~ fm (FNum z) r).
      { split; [intros (x & _ & H); auto|eauto]. }
      rewrite F, A4. clear F. split.
      + intros H. exists (Rpoly cs z). split; auto. apply iv_fm.
        destruct (iv_a i), (iv_b i), (iv_lo i), (iv_ro i); simpl in *; unfold sat in *; lra.
      + intros (y & [= <-] & H). apply iv_fm in H.
        destruct (iv_a i), (iv_b i), (iv_lo i), (iv_ro i); simpl in *; unfold sat in *; lra.
  Qed.
End Inv.
