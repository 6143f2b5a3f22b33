(** Property C59: polynomials at infinite arguments and with infinite bounds (src/poly.py,
    src/transforms.py). *)
From Coq Require Import List Bool Reals Lra Lia Arith ZArith.
From Verif Require Import Base Num Sets SetSpec SetBuilt TransSpec Poly PolyProofs Trans PolyInf PolyInfSpec.
Import ListNotations.
Local Open Scope R_scope.

(** * Limits *)
Lemma side_far : forall up A B, exists x, A < side up x /\ B < side up x.
Proof.
  intros up A B. exists (side up (Rmax A B + 1)). pose proof (Rmax_l A B). pose proof (Rmax_r A B). destruct up; cbn; lra.
Qed.
Lemma limit_unique : forall f up v w, limit_at f up v -> limit_at f up w -> v = w.
Proof.
  intros f up v w Hv Hw.
  assert (D : forall v w, limit_at f up v -> limit_at f up w -> match v, w with NInf, Fin _ => False | NInf, PInf => False | Fin _, PInf => False | _, _ => True end).
  { clear. intros v w Hv Hw. destruct v as [|y|], w as [|z|]; auto; cbn in Hv, Hw.
    - destruct (Hv (z - 1)) as (A & HA), (Hw 1) as (B & HB); [lra|]. destruct (side_far up A B) as (x & Ha & Hb).
      specialize (HA x Ha). specialize (HB x Hb). apply Rabs_def2 in HB. lra.
    - destruct (Hv 0) as (A & HA), (Hw 0) as (B & HB). destruct (side_far up A B) as (x & Ha & Hb).
      specialize (HA x Ha). specialize (HB x Hb). lra.
    - destruct (Hv 1) as (A & HA), (Hw (y + 1)) as (B & HB); [lra|]. destruct (side_far up A B) as (x & Ha & Hb).
      specialize (HA x Ha). specialize (HB x Hb). apply Rabs_def2 in HA. lra. }
  pose proof (D _ _ Hv Hw) as D1. pose proof (D _ _ Hw Hv) as D2. destruct v as [|y|], w as [|z|]; auto; try tauto.
  f_equal. destruct (Req_dec y z) as [E|E]; auto. exfalso. cbn in Hv, Hw.
  pose proof (Rabs_pos_lt (y - z)) as P. destruct (Hv (Rabs (y - z) / 2)) as (A & HA); [lra|]. destruct (Hw (Rabs (y - z) / 2)) as (B & HB); [lra|].
  destruct (side_far up A B) as (x & Ha & Hb). specialize (HA x Ha). specialize (HB x Hb).
  pose proof (Rabs_triang (y - f x) (f x - z)) as T. replace (y - f x + (f x - z)) with (y - z) in T by lra. rewrite (Rabs_minus_sym y (f x)) in T. lra.
Qed.
Lemma limit_const : forall f up c, (forall x, f x = c) -> limit_at f up (Fin c).
Proof. intros f up c H eps E. exists 0. intros x _. rewrite H, Rminus_diag_eq, Rabs_R0; auto. Qed.
Definition tip (b : bool) : ext R := if b then PInf else NInf.
(** c + x f(x), when f tends to an infinite value *)
Lemma limit_step : forall f up t c, limit_at f up (tip t) -> limit_at (fun x => c + x * f x) up (tip (Bool.eqb up t)).
Proof.
  intros f up t c H.
  destruct up, t; cbn in *; intros M.
  - destruct (H (Rabs M + Rabs c)) as (A & HA). exists (Rmax A 1). intros x Hx. pose proof (Rmax_l A 1). pose proof (Rmax_r A 1).
    assert (Hf : A < x) by lra. specialize (HA x Hf). pose proof (Rle_abs M). pose proof (Rle_abs (- c)). rewrite Rabs_Ropp in *. pose proof (Rabs_pos M). pose proof (Rabs_pos c).
    assert (f x <= x * f x) by nra. lra.
  - destruct (H (- (Rabs M + Rabs c))) as (A & HA). exists (Rmax A 1). intros x Hx. pose proof (Rmax_l A 1). pose proof (Rmax_r A 1).
    assert (Hf : A < x) by lra. specialize (HA x Hf). pose proof (Rle_abs (- M)). pose proof (Rle_abs c). rewrite Rabs_Ropp in *. pose proof (Rabs_pos M). pose proof (Rabs_pos c).
    assert (x * f x <= f x) by nra. lra.
  - destruct (H (Rabs M + Rabs c)) as (A & HA). exists (Rmax A 1). intros x Hx. pose proof (Rmax_l A 1). pose proof (Rmax_r A 1).
    assert (Hf : A < - x) by lra. specialize (HA x Hf). pose proof (Rle_abs (- M)). pose proof (Rle_abs c). rewrite Rabs_Ropp in *. pose proof (Rabs_pos M). pose proof (Rabs_pos c).
    assert (x * f x <= - f x) by nra. lra.
  - destruct (H (- (Rabs M + Rabs c))) as (A & HA). exists (Rmax A 1). intros x Hx. pose proof (Rmax_l A 1). pose proof (Rmax_r A 1).
    assert (Hf : A < - x) by lra. specialize (HA x Hf). pose proof (Rle_abs M). pose proof (Rle_abs (- c)). rewrite Rabs_Ropp in *. pose proof (Rabs_pos M). pose proof (Rabs_pos c).
    assert (- f x <= x * f x) by nra. lra.
Qed.
Lemma limit_line : forall f up a c, (forall x, f x = a) -> a <> 0 -> limit_at (fun x => c + x * f x) up (tip (Bool.eqb up (if Rlt_dec 0 a then true else false))).
Proof.
  intros f up a c E Na. 
  assert (G : forall M x, side up x > (Rabs M + Rabs c) / Rabs a -> Rabs M + Rabs c < side up x * Rabs a).
  { intros M x Hx. pose proof (Rabs_pos_lt a Na) as P. apply Rmult_lt_reg_r with (/ Rabs a); [now apply Rinv_0_lt_compat|]. unfold Rdiv in Hx. rewrite Rmult_assoc, Rinv_r by lra. lra. }
  assert (K : forall M x, Rabs M + Rabs c < side up x * Rabs a -> if Bool.eqb up (if Rlt_dec 0 a then true else false) then M < c + x * f x else c + x * f x < M).
  { intros M x Hx. rewrite E. pose proof (Rle_abs M). pose proof (Rle_abs (- M)). pose proof (Rle_abs c). pose proof (Rle_abs (- c)). rewrite !Rabs_Ropp in *.
    destruct (Rlt_dec 0 a) as [P|P]; [rewrite (Rabs_right a) in Hx by lra|rewrite (Rabs_left a) in Hx by lra]; destruct up; cbn in *; lra. }
  remember (Bool.eqb up (if Rlt_dec 0 a then true else false)) as t eqn:Et. destruct t; cbn; intros M; exists ((Rabs M + Rabs c) / Rabs a); intros x Hx; apply (K M x), G; lra.
Qed.

Section PolyInf.
  Context {N : numsys} (io : iterorder N) (po : polyoracle N).
  Notation num := (num N).
  Notation enum := (ext num).

  Lemma zero_poly : forall cs : list num, leading cs = None -> forall x, Rpoly cs x = 0.
  Proof.
    induction cs as [|c cs IH]; intros H x; [reflexivity|]. cbn in *. destruct (leading cs) as [[d a]|]; [discriminate|].
    destruct (neqb c (nint 0)) eqn:E; [|discriminate]. apply neqb_ok in E. rewrite E, nint_ok, IH by auto. lra.
  Qed.
  Lemma const_poly : forall (cs : list num) a, leading cs = Some (O, a) -> toR a <> 0 /\ forall x, Rpoly cs x = toR a.
  Proof.
    intros [|c cs] a H; [discriminate|]. cbn in H. destruct (leading cs) as [[d b]|] eqn:L; [discriminate|].
    destruct (neqb c (nint 0)) eqn:E; [discriminate|]. injection H as <-. split.
    - intros Z. assert (neqb c (nint 0) = true) by (apply neqb_ok; now rewrite nint_ok). congruence.
    - intros x. cbn. rewrite zero_poly by auto. lra.
  Qed.
  Lemma poly_limit : forall (cs : list num) d a up, leading cs = Some (S d, a) ->
    limit_at (Rpoly cs) up (tip (if up then nltb (nint 0) a else if Nat.even (S d) then nltb (nint 0) a else negb (nltb (nint 0) a))).
  Proof.
    induction cs as [|c cs IH]; intros d a up H; [discriminate|]. cbn [leading] in H.
    destruct (leading cs) as [[k b]|] eqn:L; [|destruct (neqb c (nint 0)); discriminate]. injection H as -> ->.
    change (Rpoly (c :: cs)) with (fun x => toR c + x * Rpoly cs x). destruct d as [|d].
    - destruct (const_poly cs a L) as (Na & E). pose proof (limit_line (Rpoly cs) up (toR a) (toR c) E Na) as P.
      assert (B : nltb (nint 0) a = (if Rlt_dec 0 (toR a) then true else false)).
      { destruct (Rlt_dec 0 (toR a)) as [Q|Q]; [apply nltb_ok; now rewrite nint_ok|]. destruct (nltb (nint 0) a) eqn:Z; auto. apply nltb_ok in Z. rewrite nint_ok in Z. lra. }
      rewrite <- B in P. destruct up; cbn [Nat.even]; [destruct (nltb (nint 0) a)|destruct (nltb (nint 0) a)]; exact P.
    - specialize (IH d a up eq_refl). apply (limit_step _ _ _ (toR c)) in IH.
      replace (Bool.eqb up _) with (if up then nltb (nint 0) a else if Nat.even (S (S d)) then nltb (nint 0) a else negb (nltb (nint 0) a)) in IH; [exact IH|].
      rewrite (Nat.even_succ (S d)), <- Nat.negb_even. destruct up, (Nat.even (S d)), (nltb (nint 0) a); reflexivity.
  Qed.
  Lemma signs_limit : forall (cs : list num) p n, limit_signs cs = Some (p, n) -> limit_at (Rpoly cs) true (tip p) /\ limit_at (Rpoly cs) false (tip n).
  Proof.
    intros cs p n H. unfold limit_signs in H. destruct (leading cs) as [[[|d] a]|] eqn:L; try discriminate. injection H as <- <-.
    split; [exact (poly_limit cs d a true L)|exact (poly_limit cs d a false L)].
  Qed.
  Lemma no_signs : forall cs : list num, limit_signs cs = None -> constant (Rpoly cs).
  Proof.
    intros cs H x y. unfold limit_signs in H. destruct (leading cs) as [[[|d] a]|] eqn:L; try discriminate.
    - destruct (const_poly cs a L) as (_ & E). now rewrite !E.
    - now rewrite !zero_poly.
  Qed.
  Lemma signs_not_constant : forall (cs : list num) p, limit_signs cs = Some p -> ~ constant (Rpoly cs).
  Proof.
    intros cs [p n] H C. apply signs_limit in H. destruct H as (H & _).
    assert (E : limit_at (Rpoly cs) true (Fin (Rpoly cs 0))) by (apply limit_const; intros; apply C).
    pose proof (limit_unique _ _ _ _ H E). destruct p; discriminate.
  Qed.
  Lemma peval_R : forall (cs : list num) x, toR (peval cs x) = Rpoly cs (toR x).
  Proof. induction cs; intros; cbn; [apply nint_ok|]. now rewrite nadd_ok, nmul_ok, IHcs. Qed.

  (** * The polynomial has one value at every number and at both infinities; ffwd computes it *)
  Theorem C59_ffwd : forall cs x v, value (Rpoly cs) (eR x) v <-> v = eR (ffwd_poly (N:=N) cs x).
  Proof.
    assert (K : forall cs x, value (Rpoly cs) (eR x) (eR (ffwd_poly (N:=N) cs x))).
    { intros cs x. unfold ffwd_poly. destruct (limit_signs cs) as [[p n]|] eqn:L.
      - apply signs_limit in L. destruct L as (Lp & Ln). destruct x as [|x|]; cbn.
        + destruct n; exact Ln.
        + now rewrite peval_R.
        + destruct p; exact Lp.
      - pose proof (no_signs cs L) as C. destruct x as [|x|]; cbn [eR emap value].
        + apply limit_const. intros y. rewrite peval_R. apply C.
        + cbn. now rewrite peval_R.
        + apply limit_const. intros y. rewrite peval_R. apply C. }
    intros cs x v. split; [|intros ->; apply K]. intros H. specialize (K cs x). destruct x as [|x|]; cbn [eR emap value] in *.
    - eapply limit_unique; eauto.
    - cbn in H, K |- *. congruence.
    - eapply limit_unique; eauto.
  Qed.

  (** * Equalities with an infinite bound are solved exactly *)
  Theorem C59_equality : forall cs b s, equality_inf (N:=N) cs b = Ok s ->
    wf s /\ forall v, mem v s <-> exists e, v = RNum e /\ value (Rpoly cs) e (eR b).
  Proof.
    assert (K : forall cs t s, solve_eq_inf (N:=N) cs t = Ok s -> wf s /\ forall v, mem v s <-> exists e, v = RNum e /\ value (Rpoly cs) e (tip t)).
    { intros cs t s H. unfold solve_eq_inf in H. destruct (limit_signs cs) as [[p n]|] eqn:L; [|discriminate]. apply signs_limit in L. destruct L as (Lp & Ln).
      assert (Vp : value (Rpoly cs) PInf (tip t) <-> p = t).
      { split; [|intros <-; exact Lp]. intros V. pose proof (limit_unique _ _ _ _ Lp V). destruct p, t; auto; discriminate. }
      assert (Vn : value (Rpoly cs) NInf (tip t) <-> n = t).
      { split; [|intros <-; exact Ln]. intros V. pose proof (limit_unique _ _ _ _ Ln V). destruct n, t; auto; discriminate. }
      assert (Vf : forall x, ~ value (Rpoly cs) (Fin x) (tip t)) by (intros x; destruct t; discriminate).
      assert (W : wf s).
      { destruct (Bool.eqb p t && Bool.eqb n t); [now apply FiniteReal_wf in H|]. destruct (Bool.eqb p t); [now apply FiniteReal_wf in H|].
        destruct (Bool.eqb n t); [now apply FiniteReal_wf in H|]. injection H as <-. exact I. }
      split; [exact W|]. clear W Lp Ln.
      assert (M : forall v, (exists e, v = RNum e /\ value (Rpoly cs) e (tip t)) <-> (v = RNum PInf /\ p = t) \/ (v = RNum NInf /\ n = t)).
      { intros v. rewrite <- Vp, <- Vn. split; [|intros [(-> & V)|(-> & V)]; eauto]. intros ([|x|] & -> & V); auto. now apply Vf in V. }
      intros v. rewrite M. clear M Vp Vn Vf.
      destruct p, n, t; cbn in H; injection H as <-; cbn; destruct v as [x|str]; cbn; split; intros G; repeat match goal with
        | H : exists _, _ |- _ => destruct H | H : _ /\ _ |- _ => destruct H | H : _ \/ _ |- _ => destruct H end; subst; cbn in *; try discriminate; try tauto; auto;
        repeat match goal with H : RNum _ = RNum _ |- _ => injection H as -> end;
        try (exists PInf; split; [tauto|reflexivity]); try (exists NInf; split; [tauto|reflexivity]). }
    intros cs [|b|] s H; cbn in H; [apply (K cs false s H)|discriminate|apply (K cs true s H)].
  Qed.
  (** they return exactly for polynomials that are not constant *)
  Theorem C59_equality_returns : forall cs b, is_inf b = true ->
    ((exists s, equality_inf (N:=N) cs b = Ok s) <-> ~ constant (Rpoly cs)) /\ (constant (Rpoly cs) -> equality_inf cs b = Raise AssertionError).
  Proof.
    assert (K : forall cs t, (exists s, solve_eq_inf (N:=N) cs t = Ok s) /\ ~ constant (Rpoly cs) \/ constant (Rpoly cs) /\ solve_eq_inf cs t = Raise AssertionError).
    { intros cs t. unfold solve_eq_inf. destruct (limit_signs cs) as [[p n]|] eqn:L; [left|right; split; [now apply no_signs|reflexivity]].
      split; [|now apply (signs_not_constant cs (p, n))]. destruct p, n, t; cbn; eauto. }
    intros cs b I. assert (E : exists t, equality_inf cs b = solve_eq_inf cs t) by (destruct b; try discriminate; cbn; eauto). destruct E as (t & ->).
    destruct (K cs t) as [(E & C)|(C & E)]; split; try tauto. split; [|tauto]. intros (s & H). congruence.
  Qed.

  Lemma reals_mem : forall v, mem v (Reals (N:=N)) <-> exists x, v = RNum (Fin x).
  Proof.
    intros [[|x|]|str]; cbn; unfold iv_mem; cbn; split; intros H; try (destruct H as (y & H); discriminate H); try tauto; eauto.
  Qed.

  (** * Inequalities with an infinite bound *)
  (** [ext] says whether infinite solutions count.  The case in which they are lost is below. *)
  Theorem C59_inequality_partial : forall cs b strict ext s, inequality_inf io cs b strict ext = Ok s -> b = NInf \/ strict = false \/ ext = false ->
    wf s /\ forall v, mem v s <-> exists e w, v = RNum e /\ (ext = false -> exists x, e = Fin x) /\ value (Rpoly cs) e w /\ (if strict then elt w (eR b) else ele w (eR b)).
  Proof.
    assert (Low : forall w, ~ elt w NInf) by (intros [|w|]; cbn; auto).
    assert (Low' : forall w, ele w NInf -> w = NInf) by (intros w [H|H]; [now apply Low in H|auto]).
    assert (Up : forall w, ele w PInf) by (intros [|w|]; [left; exact I|left; exact I|right; reflexivity]).
    assert (RR : forall v, mem v (Reals (N:=N)) <-> exists x, v = RNum (Fin x)).
    { exact reals_mem. }
    assert (Fv : forall cs (x : R), exists w, value (Rpoly (N:=N) cs) (Fin x) w) by (intros; eexists; reflexivity).
    assert (Av : forall cs e, exists w, value (Rpoly (N:=N) cs) e w).
    { intros cs [|x|]; [|apply Fv|]; [exists (eR (ffwd_poly cs NInf)); now apply (C59_ffwd cs NInf)|exists (eR (ffwd_poly cs PInf)); now apply (C59_ffwd cs PInf)]. }
    intros cs b strict ext s H C. destruct b as [|b|]; [|discriminate|]; cbn [inequality_inf] in H.
    - destruct strict; cbn [orb] in H; [|destruct ext; cbn [negb] in H].
      + injection H as <-. split; [exact I|]. intros v. split; [intros []|]. intros (e & w & _ & _ & _ & L). now apply Low in L.
      + change (solve_eq_inf cs false) with (equality_inf cs NInf) in H. apply C59_equality in H. destruct H as (W & M). split; [exact W|]. intros v. rewrite M. split.
        * intros (e & -> & V). exists e, NInf. repeat split; [discriminate|exact V|now right].
        * intros (e & w & -> & _ & V & L). apply Low' in L. subst w. eauto.
      + injection H as <-. split; [exact I|]. intros v. split; [intros []|]. intros (e & w & _ & F & V & L). apply Low' in L. subst w. destruct (F eq_refl) as (x & ->). discriminate.
    - destruct strict.
      + destruct C as [C|[C|C]]; try discriminate. subst ext. cbn in H. injection H as <-. split; [cbn; repeat split; auto; discriminate|]. intros v. rewrite RR. split.
        * intros (x & ->). exists (Fin x), (Fin (Rpoly cs x)). repeat split; eauto.
        * intros (e & w & -> & F & _). destruct (F eq_refl) as (x & ->). eauto.
      + injection H as <-. destruct ext.
        * split; [apply ExtReals_wf|]. intros v. split.
          -- intros (b & Hb & Hv). destruct v as [e|str]; [|destruct Hb as [<-|[<-|[]]]; destruct Hv]. destruct (Av cs e) as (w & V). exists e, w. repeat split; auto. discriminate.
          -- intros (e & w & -> & _). destruct e as [|x|].
             ++ exists (BReal [NInf; PInf]). split; [now left|]. exists NInf. split; [now left|reflexivity].
             ++ exists (BInt (mkIv NInf PInf true true)). split; [right; now left|]. split; exact I.
             ++ exists (BReal [NInf; PInf]). split; [now left|]. exists PInf. split; [right; now left|reflexivity].
        * split; [cbn; repeat split; auto; discriminate|]. intros v. rewrite RR. split.
          -- intros (x & ->). exists (Fin x), (Fin (Rpoly cs x)). repeat split; eauto.
          -- intros (e & w & -> & F & _). destruct (F eq_refl) as (x & ->). eauto.
  Qed.
  (** p(x) < oo: the infinite solutions are lost when they are added to the real line *)
  Theorem C59_below_infinity : forall cs s, inequality_inf io cs PInf true true = Ok s -> forall v, mem v s <-> exists x, v = RNum (Fin x).
  Proof.
    intros cs s H v. cbn [inequality_inf] in H. inv_bind H.
    assert (s = Reals (N:=N)) as ->.
    { unfold solve_eq_inf in E. destruct (limit_signs cs) as [[p n]|]; [|discriminate].
      destruct p, n; cbn in E; injection E as <-; cbn in H; injection H as <-; reflexivity. }
    apply reals_mem.
  Qed.
  (** Poly.range has no infinite number, and Poly.finv no solution at one *)
  Theorem C59_range : forall cs s, poly_range io po cs = Ok s -> ~ mem (RNum PInf) s /\ ~ mem (RNum NInf) s /\
    finv_poly io po cs PInf = Ok PEmpty /\ finv_poly io po cs NInf = Ok PEmpty.
  Proof.
    intros cs s H. pose proof (poly_range_inffree io po cs s H) as F. pose proof (poly_range_ok io po cs s H) as (W & R & _).
    assert (K : forall e, (forall x, e <> Fin x) -> ~ mem (RNum e) s) by (intros e I M; apply F in M; destruct M as (x & ->); now apply (I x)).
    assert (G : forall e : enum, is_inf e = true -> finv_poly io po cs e = Ok PEmpty).
    { intros e I. unfold finv_poly. rewrite H. cbn [bind]. destruct (contains_num_total io e s) as (b & Eb). rewrite Eb. cbn [bind]. destruct b; [exfalso|reflexivity].
      pose proof (proj1 (contains_ok io (VNum e) s true W R Eb) eq_refl) as M. cbn in M. revert M. apply K. intros x. now destruct e. }
    repeat split; auto; apply K; discriminate.
  Qed.
End PolyInf.
