(** Properties C16-C18: disjunctive normal forms (src/dnf.py).
    Vocabulary (DnfSpec.v): [clause_holds]/[factor_holds] the meaning of the factored event,
    [on_vars] that every literal constrains a variable directly, [clauses] the disjuncts,
    [never_both] that no assignment makes both true, [sorted] that every variable is used
    with one sort (numbers or strings) and no literal is empty. *)
From Coq Require Import List Bool String Reals Lra Lia ZArith QArith Qreals.
From Verif Require Import Base Num Sets SetSpec SetIv SetProofs SetOr SetOps SetAlg SetBuilt
  Poly Trans TransSpec TransFacts PolyProofs InvProofs InvMain EvProofs ArithProofs PolyEx PropTrans
  Dnf DnfSpec DnfProofs DnfUnion.
Import ListNotations.
Local Open Scope R_scope.
Local Open Scope string_scope.

Section Props.
  Context {N : numsys} (io : iterorder N) (po : polyoracle N) (fuel : nat).
  Notation tr := (tr N).
  Implicit Types (e d : tr) (w : asg).

  (** C16 *)
  Theorem C16_clauses : forall lk e f, gev e -> dnf_factor_with io lk e = Ok f ->
    Forall2 (fun a c => forall w, clause_holds c w <-> holds a w) (clauses e) f.
  Proof.
    intros lk e f G H. eapply Forall2_weaken; [|apply (dnf_factor_with_ok io lk (fun _ => True) e f (mergeable_true io lk) G); auto; apply Forall_forall; auto].
    intros a c (_ & K & _). exact K.
  Qed.
  Theorem C16_meaning : forall lk e f, gev e -> dnf_factor_with io lk e = Ok f ->
    forall w, factor_holds f w <-> holds e w.
  Proof.
    intros lk e f G H w. rewrite holds_clauses. apply C16_clauses in H; auto. unfold factor_holds.
    apply (Forall2_ex _ _ (fun a => holds a w) (fun c => clause_holds c w)). eapply Forall2_weaken; [|exact H]. cbv beta. auto.
  Qed.
  (** every conjunct is filed under the value of the lookup at each of its variables, no key
      occurs twice and no clause is empty *)
  Theorem C16_keys : forall lk e f, gev e -> dnf_factor_with io lk e = Ok f ->
    forall c, In c f -> c <> [] /\ NoDup (map fst c) /\
      forall k a, In (k, a) c -> gev a /\ forall s, In s (symbols a) -> lookup s lk = Some k.
  Proof.
    intros lk e f G H c Hc.
    assert (F := dnf_factor_with_ok io lk (fun _ => True) e f (mergeable_true io lk) G ltac:(apply Forall_forall; auto) H).
    destruct (Forall2_in_r _ _ _ _ _ _ F Hc) as (a & _ & (Fl & Nd) & _ & Ne). split; auto. split; auto. intros k x Hx.
    rewrite Forall_forall in Fl. destruct (Fl _ Hx) as (Gx & Kx). split; auto. apply keyed_lits. eapply Forall_impl; [|exact Kx]. intros y (K & _). exact K.
  Qed.
  (** without a lookup, a conjunct is filed under its only variable *)
  Theorem C16_default_keys : forall e f, gev e -> dnf_factor io e = Ok f ->
    forall c k a, In c f -> In (k, a) c -> only k a.
  Proof.
    intros e f G H c k a Hc Ha s Hs. destruct (C16_keys _ e f G H c Hc) as (_ & _ & K). destruct (K k a Ha) as (_ & K').
    apply K' in Hs. apply lookup_self in Hs. symmetry. tauto.
  Qed.

  Lemma and_lit_total : forall x (a b : tr), gev a -> gev b -> lit_on x a -> lit_on x b -> exists c, ev_and io a b = Ok c.
  Proof.
    intros x a b Ga Gb (k & v & ->) (j & u & ->). 
    unfold ev_and. cbn [teqb]. rewrite String.eqb_refl.
    pose proof (gev_wf _ _ _ Ga) as (_ & W1 & _). pose proof (gev_wf _ _ _ Gb) as (_ & W2 & _).
    assert (exists r, pand io v u = Ok r /\ forall l, r <> PUnion l) as (r & -> & Nr).
    { destruct v as [|b1|a1]; [exists PEmpty; split; [reflexivity|discriminate]| |now apply gev_not_union in Ga].
      destruct u as [|b2|a2]; [exists PEmpty; split; [reflexivity|discriminate]| |now apply gev_not_union in Gb].
      destruct (and_bb_ok b1 b2 W1 W2) as (r & H1 & _ & H2). exists r. split; [exact H1|]. intros l ->. exact H2. }
    cbn [bind]. destruct r as [|[]|l]; cbn; eauto.
  Qed.
  Lemma basic_on_var : forall e, is_basic e = true -> on_vars e -> on_var e.
  Proof. intros e H O. destruct e; try discriminate. unfold on_vars in O. cbn [lits] in O. inversion O; auto. Qed.
  (** factoring a disjunctive normal form on variables succeeds *)
  Theorem C16_total : forall e, gev e -> is_dnf e -> on_vars e -> exists f, dnf_factor io e = Ok f.
  Proof.
    intros e G D O. unfold dnf_factor.
    assert (Lk : forall s, In s (symbols e) -> lookup s (map (fun s => (s, s)) (symbols e)) = Some s).
    { generalize (symbols e). induction l as [|y l IH]; intros s Hs; [destruct Hs|]. simpl. destruct (String.eqb_spec s y); [now subst|].
      apply IH. destruct Hs; congruence. }
    set (lk := map (fun s => (s, s)) (symbols e)) in *. clearbody lk.
    assert (Lit : forall a : tr, on_var a -> gev a -> incl (symbols a) (symbols e) -> exists x, factor_lit lk a = Ok (x, a) /\ lit_on x a).
    { intros a (k & x & v & ->) Ga I. exists x. unfold factor_lit. cbn [symbols]. rewrite Lk; [|apply I; now left]. split; auto. unfold lit_on; eauto. }
    assert (Cl : forall a : tr, is_clause a -> gev a -> on_vars a -> incl (symbols a) (symbols e) -> exists c, factor_clause io lk a = Ok c).
    { intros a [Ha|(l & -> & Nl & Ll)] Ga Oa I.
      - destruct (Lit a (basic_on_var a Ha Oa) Ga I) as (y & E & _). unfold is_lit in Ha. destruct a; try discriminate.
        cbn [factor_clause]. rewrite E. eexists. reflexivity.
      - cbn [factor_clause]. unfold factor_and.
        assert (Fb : forallb is_basic l = true) by (apply forallb_forall; rewrite Forall_forall in Ll; exact Ll). rewrite Fb. cbn [passert bind].
        apply gev_and in Ga. destruct Ga as (_ & Gl). unfold on_vars in Oa. cbn [lits] in Oa. apply lits_list in Oa.
        assert (Il : Forall (fun x => incl (symbols x) (symbols e)) l).
        { apply Forall_forall. intros x Hx s Hs. apply I. cbn [symbols]. apply in_sunions. exists (symbols x). split; auto. now apply in_map. }
        clear I Fb Nl. assert (F0 : Forall (fun p : string * tr => gev (snd p) /\ lit_on (fst p) (snd p)) []) by constructor.
        revert F0. generalize (@nil (string * tr)) as c0.
        induction l as [|a l IH]; intros c0 F0; [eexists; reflexivity|]. cbn [foldM]. inversion Gl; inversion Oa; inversion Il; inversion Ll; subst.
        assert (La : on_var a) by (apply basic_on_var; auto).
        destruct (Lit a La H1 H9) as (x & -> & Lx). cbn [bind fst snd].
        assert (exists c1, add_key io c0 x a = Ok c1 /\ Forall (fun p : string * tr => gev (snd p) /\ lit_on (fst p) (snd p)) c1) as (c1 & -> & F1).
        { clear IH. induction c0 as [|(k, b) c0 IHc]; cbn [add_key]; [eexists; split; [reflexivity|auto]|]. inversion F0 as [|? ? (Gb & Lb) F0']; subst. cbn [fst snd] in *.
          destruct (String.eqb x k) eqn:Ek.
          - apply String.eqb_eq in Ek. subst k. destruct (and_lit_total x b a) as (r & Hr); auto. rewrite Hr. cbn [bind]. eexists. split; [reflexivity|].
            constructor; auto. cbn [fst snd]. split; [now apply (ev_and_ok io b a r)|now apply (and_lit_on io x b a r)].
          - destruct (IHc F0') as (c1 & -> & F1). cbn [bind]. eexists. split; [reflexivity|]. auto. }
        cbn [bind]. apply IH; auto. }
    destruct D as [D|(l & -> & Nl & Dl)].
    - destruct (Cl e D G O (incl_refl _)) as (c & Hc). destruct D as [D|(l & -> & _)].
      + destruct e; try discriminate. cbn [dnf_factor_with]. rewrite Hc. eexists. reflexivity.
      + cbn [dnf_factor_with]. rewrite Hc. eexists. reflexivity.
    - cbn [dnf_factor_with].
      assert (Fb : forallb (fun e : tr => is_and e || is_basic e) l = true).
      { apply forallb_forall. intros x Hx. rewrite Forall_forall in Dl. destruct (Dl x Hx) as [K|(m & -> & _)]; auto. unfold is_lit in K. now rewrite K, orb_true_r. }
      rewrite Fb. cbn [passert bind]. apply gev_or in G. destruct G as (_ & Gl). unfold on_vars in O. cbn [lits] in O. apply lits_list in O.
      assert (Il : Forall (fun x => incl (symbols x) (symbols (EOr l))) l).
      { apply Forall_forall. intros x Hx s Hs. cbn [symbols]. apply in_sunions. exists (symbols x). split; auto. now apply in_map. }
      revert Il Cl. generalize (symbols (EOr l)) as S. intros S Il Cl. clear Lk Lit Nl Fb. induction l as [|a l IH]; [eexists; reflexivity|].
      inversion Gl; inversion O; inversion Il; inversion Dl; subst. cbn [mapM]. destruct (Cl a) as (c & ->); auto. cbn [bind].
      destruct IH as (f & ->); auto. cbn [bind]. eexists. reflexivity.
  Qed.

  (** C17: normalising keeps the meaning at every assignment where the event's transforms are
      applied inside their domains; the result is a disjunctive normal form whose literals
      constrain variables of the event directly *)
  Theorem C17_some : forall e d, gev e -> dnf_normalize io po fuel e = Ok (Some d) ->
    gev d /\ is_dnf d /\ on_vars d /\ (forall x, In x (symbols d) -> In x (symbols e)) /\
    forall w, regular true e w -> (holds d w <-> holds e w).
  Proof.
    intros e d G H. destruct (dnf_normalize_ok io po fuel e (Some d) G H) as (Gd & D & L & M).
    split; auto. split; auto. split; [now apply lit_on_on_vars in L|]. split; [|intros w R; now apply (M w true)].
    intros x Hx. apply symbols_lits in Hx. destruct Hx as (l & Hl & Hs). rewrite Forall_forall in L. destruct (L l Hl) as (s & Is & k & v & ->).
    cbn in Hs. destruct Hs as [<-|[]]. exact Is.
  Qed.
  (** None: the event is never true *)
  Theorem C17_none : forall e, gev e -> dnf_normalize io po fuel e = Ok None -> forall w, regular true e w -> ~ holds e w.
  Proof. intros e G H w R. apply (dnf_normalize_ok io po fuel e None G H w true R). Qed.
  (** an event without partial transforms needs no condition on the assignment *)
  Theorem C17_plain : forall e o, gev e -> plain e -> dnf_normalize io po fuel e = Ok o ->
    forall w, holds e w <-> exists d, o = Some d /\ holds d w.
  Proof.
    intros e o G P H w. assert (R : regular true e w) by (now apply plain_regular). destruct o as [d|].
    - destruct (C17_some e d G H) as (_ & _ & _ & _ & M). rewrite <- (M w R). split; [eauto|]. intros (d' & E & K). congruence.
    - pose proof (C17_none e G H w R). split; [tauto|]. intros (d' & E & _). discriminate.
  Qed.

  (** C18: the clauses of the disjoint union are disjunctive clauses on variables, no
      assignment makes two of them true, and the union implies the event *)
  Theorem C18_disjoint : forall n e d, gev e -> is_dnf e -> on_vars e -> disjoint_union io po fuel n e = Ok d ->
    gev d /\ is_dnf d /\ on_vars d /\ disjoint_clauses d.
  Proof. intros n e d G D O H. destruct (disjoint_union_ok io po fuel (fun _ => true) n e d G D O H) as ((A1 & A2 & A3 & A4) & _). auto. Qed.
  Theorem C18_sound : forall n e d, gev e -> is_dnf e -> on_vars e -> disjoint_union io po fuel n e = Ok d ->
    forall w, holds d w -> holds e w.
  Proof. intros n e d G D O H. destruct (disjoint_union_ok io po fuel (fun _ => true) n e d G D O H) as (_ & K & _). exact K. Qed.
  (** the event implies the union at every assignment that gives each variable a value of the
      sort with which the event uses it *)
  Theorem C18_complete : forall nominal n e d, gev e -> is_dnf e -> sorted nominal e -> disjoint_union io po fuel n e = Ok d ->
    forall w, sorted_asg nominal w -> holds e w -> holds d w.
  Proof.
    intros nominal n e d G D S H. assert (O : on_vars e).
    { eapply Forall_impl; [|exact S]. intros a (k & x & v & -> & _). unfold on_var; eauto. }
    destruct (disjoint_union_ok io po fuel nominal n e d G D O H) as (_ & _ & K). auto.
  Qed.
  (** at most one clause is true at a time, and exactly one when the event is true: the sum
      over the clauses of their indicators is the indicator of the event *)
  Definition ind_of (e : tr) (w : asg) : R := if dec (holds e w) then 1 else 0.
  Theorem C18_partition : forall nominal n e d, gev e -> is_dnf e -> sorted nominal e -> disjoint_union io po fuel n e = Ok d ->
    forall w, sorted_asg nominal w ->
    fold_right Rplus 0 (map (fun c => ind_of c w) (clauses d)) = ind_of e w.
  Proof.
    intros nominal n e d G D S H w Sw. assert (O : on_vars e).
    { eapply Forall_impl; [|exact S]. intros a (k & x & v & -> & _). unfold on_var; eauto. }
    pose proof (C18_sound n e d G D O H w) as A. pose proof (C18_complete nominal n e d G D S H w Sw) as B.
    destruct (C18_disjoint n e d G D O H) as (_ & _ & _ & Dj). unfold disjoint_clauses in Dj.
    assert (HC := holds_clauses d w).
    assert (K : fold_right Rplus 0 (map (fun c => ind_of c w) (clauses d)) = if dec (exists c, In c (clauses d) /\ holds c w) then 1 else 0).
    { clear HC. induction Dj as [|c l Hc Dj IH]; cbn [map fold_right].
      - destruct (dec _) as [(c & [] & _)|]; auto.
      - rewrite IH. unfold ind_of. destruct (dec (holds c w)) as [Hh|Hh].
        + destruct (dec (exists c0, In c0 l /\ _)) as [(c' & Hi & Hh')|_].
          * rewrite Forall_forall in Hc. destruct (Hc c' Hi w). auto.
          * destruct (dec _) as [_|Nn]; [lra|]. destruct Nn. exists c. simpl. auto.
        + destruct (dec (exists c0, In c0 l /\ _)) as [(c' & Hi & Hh')|Nn].
          * destruct (dec _) as [_|Nn]; [lra|]. destruct Nn. exists c'. simpl. auto.
          * destruct (dec _) as [(c' & [<-|Hi] & Hh')|_]; [tauto| |lra]. destruct Nn. eauto. }
    rewrite K. unfold ind_of. destruct (dec (exists c, _)); destruct (dec (holds e w)); tauto.
  Qed.
End Props.

(** Cases and counterexamples. *)
Section Examples.
  Let po := po_small QS.
  Let X : tr QS := TId "X".
  Let Y : tr QS := TId "Y".
  Let yb : tr QS := EBasic KNom Y (fn ["b"]).
  (** (X < 0 & Y << {'a'}) | (X >= 0) | (Y << {'a'}) *)
  Definition d3 : tr QS := EOr [EAnd [neg; ya]; nonneg; ya].
  Lemma gev_d3 : gev d3.
  Proof.
    apply (EventOr_ok [EAnd [neg; ya]; nonneg; ya]); [|reflexivity]. constructor; [|auto using gev_nonneg, gev_ya].
    apply (EventAnd_ok [neg; ya]); [|reflexivity]. auto using gev_neg, gev_ya.
  Qed.
  Lemma d3_shape : is_dnf d3 /\ on_vars d3.
  Proof.
    split.
    - right. eexists. split; [reflexivity|]. split; [discriminate|].
      constructor; [|constructor; [left; reflexivity|constructor; [left; reflexivity|constructor]]].
      right. eexists. split; [reflexivity|]. split; [discriminate|]. repeat constructor.
    - repeat constructor; unfold on_var; repeat eexists.
  Qed.
  Definition nomY (x : string) : bool := String.eqb x "Y".
  Lemma d3_sorted : sorted nomY d3.
  Proof.
    unfold sorted. cbn [d3 lits map List.concat app neg nonneg ya].
    repeat constructor; (do 3 eexists; split; [reflexivity|]); (split; [discriminate|]); split; intro K; (reflexivity || discriminate K).
  Qed.
  Example C16_case : gev d3 /\ is_dnf d3 /\ on_vars d3 /\ dnf_factor ioQ d3 = Ok [[("X", neg); ("Y", ya)]; [("X", nonneg)]; [("Y", ya)]] /\
    dnf_factor_with ioQ [("X", "left"); ("Y", "left")] (EAnd [neg; ya]) = Ok [[("left", EAnd [neg; ya])]].
  Proof. split; [apply gev_d3|]. destruct d3_shape as (H1 & H2). refine (conj H1 (conj H2 (conj eq_refl eq_refl))). Qed.
  (** C17: the unsatisfiable clause disappears *)
  Example C17_case : gev e11 /\ plain e11 /\ (exists d, dnf_normalize ioQ po 5 e11 = Ok (Some d)) /\
    dnf_normalize ioQ po 5 (EOr [EAnd [neg; nonneg]; ya]) = Ok (Some ya) /\
    dnf_normalize ioQ po 5 (EAnd [neg; nonneg]) = Ok None.
  Proof.
    split; [apply gev_e11|]. split; [simpl; intuition discriminate|]. split; [eexists; reflexivity|]. split; reflexivity.
  Qed.
  (** X << {} is returned as it is: None is not the only way to report an event that is never
      true (the short cut of src/dnf.py:67-68) *)
  Theorem C17_empty_is_none_refuted : exists e : tr QS, gev e /\ plain e /\ (forall w, ~ holds e w) /\
    exists d, dnf_normalize ioQ po 5 e = Ok (Some d).
  Proof.
    exists (EBasic KReal X PEmpty).
    split; [split; [|reflexivity]; simpl; auto|]. split; [simpl; intuition discriminate|].
    split; [|eexists; reflexivity]. intros w H. apply holds_basic in H. destruct H as (y & _ & _ & F). destruct y; exact F.
  Qed.
  (** C18: the third clause adds nothing to the other two and disappears *)
  Lemma holds_neg : forall w, holds neg w <-> exists x, w "X" = FNum x /\ x < 0.
  Proof.
    intro w. unfold neg. rewrite (holds_gev _ _ _ _ gev_neg). cbn [teval]. split.
    - intros (y & E & F). injection E as <-. destruct (w "X") as [x|]; [|cbn in F; contradiction]. exists x. split; auto.
      unfold iv in F. apply iv_fm in F. destruct F as (_ & F). unfold below in F. cbn in F. replace (Q2R 0) with 0 in F by (unfold Q2R; simpl; lra). exact F.
    - intros (x & E & F). exists (w "X"). split; auto. rewrite E. unfold iv. apply iv_fm. split; [exact I|]. unfold below. cbn.
      replace (Q2R 0) with 0 by (unfold Q2R; simpl; lra). exact F.
  Qed.
  Lemma holds_nonneg : forall w, holds nonneg w <-> exists x, w "X" = FNum x /\ 0 <= x.
  Proof.
    intro w. unfold nonneg. rewrite (holds_gev _ _ _ _ gev_nonneg). cbn [teval]. split.
    - intros (y & E & F). injection E as <-. destruct (w "X") as [x|]; [|cbn in F; contradiction]. exists x. split; auto.
      unfold iv in F. apply iv_fm in F. destruct F as (F & _). unfold above in F. cbn in F. replace (Q2R 0) with 0 in F by (unfold Q2R; simpl; lra). exact F.
    - intros (x & E & F). exists (w "X"). split; auto. rewrite E. unfold iv. apply iv_fm. split; [|exact I]. unfold above. cbn.
      replace (Q2R 0) with 0 by (unfold Q2R; simpl; lra). exact F.
  Qed.
  Lemma holds_ya : forall w, holds ya w <-> w "Y" = FStr "a".
  Proof.
    intro w. unfold ya. rewrite (holds_gev _ _ _ _ gev_ya). cbn [teval]. split.
    - intros (y & E & F). injection E as <-. destruct (w "Y") as [x|t]; [cbn in F; contradiction|]. cbn in F. intuition congruence.
    - intros E. exists (w "Y"). split; auto. rewrite E. cbn. auto.
  Qed.
  Example C18_case : gev d3 /\ is_dnf d3 /\ on_vars d3 /\ sorted nomY d3 /\ (exists w, sorted_asg nomY w /\ holds d3 w) /\
    ~ disjoint_clauses d3 /\ disjoint_union ioQ po 5 5 d3 = Ok (EOr [EAnd [neg; ya]; nonneg]).
  Proof.
    split; [apply gev_d3|]. destruct d3_shape. split; auto. split; auto. split; [apply d3_sorted|].
    split.
    - exists (fun x => if String.eqb x "Y" then FStr "a" else FNum 3). split; [intro x; unfold nomY; destruct (String.eqb x "Y"); reflexivity|].
      apply holds_or. exists nonneg. split; [simpl; auto|]. apply holds_nonneg. exists 3. split; [reflexivity|lra].
    - split; [|reflexivity]. intro Dj. inversion Dj as [|? ? F _]; subst. rewrite Forall_forall in F.
      apply (F ya ltac:(simpl; auto) (fun x => if String.eqb x "Y" then FStr "a" else FNum (-1))).
      split; [|now apply holds_ya]. apply holds_and. intros e [<-|[<-|[]]]; [|now apply holds_ya]. apply holds_neg. exists (-1). split; [reflexivity|lra].
  Qed.
  (** When one variable is compared both with strings and with numbers the union loses
      assignments: the complement of Y << {'a'} is the other strings, so (Y << {'a'}) | (X >= 0)
      is split into Y << {'a'} and (X >= 0) & (Y << other strings), and neither is true at
      X = 3, Y = 1. *)
  Theorem C18_mixed_sorts_refuted : exists (e d : tr QS) w, gev e /\ is_dnf e /\ on_vars e /\
    disjoint_union ioQ po 5 5 e = Ok d /\ holds e w /\ ~ holds d w.
  Proof.
    exists (EOr [ya; nonneg]).
    exists (EOr [ya; EAnd [nonneg; EBasic KNom Y (PB (BNom ["a"] (Some true)))]]). exists (fun x => if String.eqb x "Y" then FNum 1 else FNum 3).
    split; [apply (EventOr_ok [ya; nonneg]); [auto using gev_ya, gev_nonneg|reflexivity]|].
    split; [right; eexists; split; [reflexivity|]; split; [discriminate|]; repeat constructor|].
    split; [repeat constructor; unfold on_var; repeat eexists|]. split; [reflexivity|].
    split; [apply holds_or; exists nonneg; split; [simpl; auto|]; apply holds_nonneg; exists 3; split; [reflexivity|lra]|].
    intro H. apply holds_or in H. destruct H as (c & [<-|[<-|[]]] & Hc).
    - apply holds_ya in Hc. cbn in Hc. discriminate.
    - rewrite holds_and in Hc. specialize (Hc _ (or_intror (or_introl eq_refl))). apply holds_basic in Hc.
      destruct Hc as (y & E & _ & F). cbn in E. injection E as <-. cbn in F. contradiction.
  Qed.
End Examples.

Definition all_dnf_properties :=
  (@C16_clauses, @C16_meaning, @C16_keys, @C16_default_keys, @C16_total, @C16_case,
   @C17_some, @C17_none, @C17_plain, @C17_case, @C17_empty_is_none_refuted,
   @C18_disjoint, @C18_sound, @C18_complete, @C18_partition, @C18_case, @C18_mixed_sorts_refuted).
Print Assumptions all_dnf_properties.
