(** Property C60: observations can be made one at a time, in any order. *)
From Coq Require Import List Bool String Reals Lra Lia ZArith QArith Qreals PeanoNat FunctionalExtensionality Permutation Classical.
From Verif Require Import Base Num Sets SetSpec SetIv SetProofs SetOr SetOps SetAlg SetBuilt
  Poly Trans TransSpec TransFacts PolyProofs InvProofs InvMain EvProofs ArithProofs
  Dnf DnfSpec DnfProofs DnfUnion PropDnf Logs Spe SpeSpec SpeFacts SpeRect LeafProofs LeafEvents LeafCond SpeCons LeafGiven MemoProofs
  NormSorts LogprobProofs LogprobTop SpeEq SimplifyProofs CondTypes CondProofs CondTop PropSpe SpeOps OpsProofs BuildProofs TransformProofs PropCons Prog ProgSpec ProgEvents ProgProofs PropProg
  TotalSpec TotalEnds TotalSets TotalSolve TotalProofs PropTotal TotalUnion TotalGrid CondLeafTotal SimplifyTotal TightUnion Diffuse CondTotal PropCondTotal BranchTotal ReturnSpec SwitchTotal ReturnProofs CondShape CompileSpec CompileProofs SessionSpec.
Import ListNotations.
Local Open Scope R_scope.

Section Properties.
  Context {N : numsys} {S : logsys} {D : distsys N S} (io : iterorder N) (so : strorder) (po : polyoracle N).
  Context (dlaw : dist D -> (fval -> R) -> R) (Ed : eq_dist dlaw).
  Context (ids : spe D -> spe D -> nat) (hash : spe D -> Z) (nominal : string -> bool) (envof : string -> tenv (N:=N)).
  Notation spe := (spe D).
  Notation tr := (tr N).
  Notation den := (den dlaw).
  Notation Pr := (Pr dlaw).
  Notation wf_spe := (wf_spe dlaw).
  Notation typed := (typed (D:=D) nominal envof).
  Notation none := (fun (_ : string) (_ : R) => False).
  Notation conditionable := (conditionable dlaw nominal).
  (** each call has a memo table of its own *)
  Notation step fuel := (fun s e => fresh (condition io so po fuel (ids s) hash s e)).
  Notation ask fuel s e := (fresh (logprob io po fuel (ids s) s e)).
  Context (Hid : forall s, distinct (ids s) s).

  Lemma all_cons : forall e (es : list tr) w, all_hold (e :: es) w <-> holds e w /\ all_hold es w.
  Proof. intros e es w. unfold all_hold. split; [intros H; split; [apply H; now left|intros f Hf; apply H; now right]|intros (A & B) f [<-|Hf]; auto]. Qed.
  Lemma given_and : forall (s t u : spe) (P Q : asg -> Prop), simple (ind Q) -> given dlaw s P t -> given dlaw t Q u -> given dlaw s (fun w => P w /\ Q w) u.
  Proof.
    intros s t u P Q Sq G1 G2 f Sf w. specialize (G2 f Sf w). pose proof (G1 _ Sq w) as G3. pose proof (G1 _ (simple_mult _ _ Sf Sq) w) as G4. cbv beta in G3, G4.
    assert (E1 : den s (ind (fun w => P w /\ Q w)) w = den t (ind Q) w * den s (ind P) w) by (rewrite G3; f_equal; extensionality a; rewrite ind_and; ring).
    assert (E2 : den s (fun a => f a * ind (fun w => P w /\ Q w) a) w = den t (fun a => f a * ind Q a) w * den s (ind P) w) by (rewrite G4; f_equal; extensionality a; rewrite ind_and; ring).
    rewrite E1, E2, <- G2. ring.
  Qed.
  Lemma all_simple : forall es : list tr, Forall (fun e => gev e /\ univariate e) es -> simple (ind (all_hold es)).
  Proof.
    intros es F. induction F as [|e es (G & U) F IH].
    - apply (simple_ind_ext (fun _ => True)); [|apply simple_ind_const]. intros w. split; auto. intros _ e [].
    - apply (simple_ind_ext (fun w => holds e w /\ all_hold es w)); [intros w; symmetry; apply all_cons|]. apply simple_ind_and; auto. now apply event_simple.
  Qed.
  Lemma conditionable_given : forall s F t e, wf_spe s -> cond_ok dlaw nominal envof s F t -> univariate e -> conditionable s e -> conditionable t e.
  Proof.
    intros s F t e W C Un (G & Rg & Se & Sy). split; auto. split; [|split; auto].
    - apply (given_surely dlaw nominal envof s F t); auto. now apply regular_simple.
    - intros x Hx. apply (proj1 (proj2 C)). auto.
  Qed.
  (** the session returns the conditional distribution given all observations *)
  Lemma session_ok : forall fuel es s t, wf_spe s -> typed s -> Forall (fun e => conditionable s e /\ univariate e) es -> observe (step fuel) es s = Ok t -> cond_ok dlaw nominal envof s (all_hold es) t.
  Proof.
    intros fuel. induction es as [|e es IH]; intros s t W T F H; cbn [observe] in H.
    - injection H as <-. apply cond_ok_true; auto. intros w e [].
    - inv_bind H. rename r into s1. inversion F as [|? ? (Ce & Ue) F']; subst. pose proof (fresh_condition io so po fuel dlaw Ed (ids s) hash nominal envof s e s1 W T (Hid s) Ce E) as K. pose proof K as (W1 & V1 & T1 & P1 & G1).
      destruct (IH s1 t W1 T1) as (W2 & V2 & T2 & P2 & G2); auto.
      { eapply Forall_impl; [|exact F']. intros f (Cf & Uf). split; auto. now apply (conditionable_given s (holds e) s1). }
      assert (Sq : simple (ind (all_hold es))) by (apply all_simple; eapply Forall_impl; [|exact F']; intros f (Cf & Uf); split; auto; apply Cf).
      apply (cond_ok_ext dlaw nominal envof s (fun w => holds e w /\ all_hold es w)); [intros w; symmetry; apply all_cons|].
      split; auto. split; [intros x; now rewrite V2|]. split; auto. split; [|now apply (given_and s s1)].
      intros w. pose proof (G1 _ Sq w) as G3. replace (den s (ind (fun a => holds e a /\ all_hold es a)) w) with (den s1 (ind (all_hold es)) w * den s (ind (holds e)) w).
      + apply Rmult_lt_0_compat; auto.
      + rewrite G3. f_equal. extensionality a. rewrite ind_and. ring.
  Qed.
  Theorem C60_steps : forall fuel es s t, wf_spe s -> typed s -> Forall (fun e => conditionable s e /\ univariate e) es -> observe (step fuel) es s = Ok t ->
    wf_spe t /\ (forall x, vars t x <-> vars s x) /\ 0 < Pr s (all_hold es) /\ given dlaw s (all_hold es) t.
  Proof. intros fuel es s t W T F H. destruct (session_ok fuel es s t W T F H) as (A & B & _ & C & G). split; auto. split; auto. split; auto. apply C. Qed.
  (** conditional distributions given one event are equal *)
  Lemma given_unique : forall (s t u : spe) (P Q : asg -> Prop), (forall w, P w <-> Q w) -> (forall w, 0 < den s (ind P) w) -> given dlaw s P t -> given dlaw s Q u -> same_law dlaw t u.
  Proof.
    intros s t u P Q E Pos G1 G2 f Sf w. specialize (G1 f Sf w). specialize (G2 f Sf w). rewrite <- (ind_iff _ P Q E) in G2. rewrite <- G2 in G1. apply Rmult_eq_reg_r in G1; auto. specialize (Pos w). lra.
  Qed.
  (** the order of the observations, and repetitions, do not matter *)
  Theorem C60_order : forall fuel fuel' es es' s t u, wf_spe s -> typed s -> Forall (fun e => conditionable s e /\ univariate e) es -> (forall e, In e es <-> In e es') ->
    observe (step fuel) es s = Ok t -> observe (step fuel') es' s = Ok u -> same_law dlaw t u.
  Proof.
    intros fuel fuel' es es' s t u W T F P Ht Hu.
    assert (F' : Forall (fun e => conditionable s e /\ univariate e) es') by (rewrite Forall_forall in *; intros e He; apply F; now apply P).
    destruct (session_ok fuel es s t W T F Ht) as (_ & _ & _ & Pos & G1). destruct (session_ok fuel' es' s u W T F' Hu) as (_ & _ & _ & _ & G2).
    apply (given_unique s t u (all_hold es) (all_hold es')); auto. intros w. unfold all_hold. split; intros H e He; apply H; now apply P.
  Qed.
  (** one condition with the same meaning as all observations gives the same *)
  Theorem C60_joint : forall fuel es s g t u, wf_spe s -> typed s -> Forall (fun e => conditionable s e /\ univariate e) es -> conditionable s g -> (forall w, holds g w <-> all_hold es w) ->
    observe (step fuel) es s = Ok t -> step fuel s g = Ok u -> same_law dlaw t u.
  Proof.
    intros fuel es s g t u W T F Cg E Ht Hu. destruct (session_ok fuel es s t W T F Ht) as (_ & _ & _ & Pos & G1).
    destruct (fresh_condition io so po fuel dlaw Ed (ids s) hash nominal envof s g u W T (Hid s) Cg Hu) as (_ & _ & _ & _ & G2).
    apply (given_unique s t u (all_hold es) (holds g)); auto. intros w. symmetry. apply E.
  Qed.

  (** ** Sessions of comparisons run to the end *)
  Section Comparisons.
    Context (derived : string -> bool) (cuts : string -> R -> Prop).
    Notation tidy := (tidy (D:=D) nominal derived cuts True).
    Notation direct := (direct (N:=N) nominal cuts none).
    (** combinations of comparisons of sampled variables; single comparisons, if there is only
        one sampled variable *)
    Definition observation (s : spe) (e : tr) : Prop :=
      direct e /\ (forall x, In x (symbols e) -> vars s x /\ derived x = false) /\ (two (base derived (vars s)) \/ is_basic e = true).
    Lemma observation_vars : forall s t e, (forall x, vars t x <-> vars s x) -> observation s e -> observation t e.
    Proof.
      intros s t e V (De & Sy & K). split; auto. split; [intros x Hx; rewrite V; auto|]. destruct K as [K|K]; auto. left. apply (two_iff (base derived (vars s))); auto. intros x. apply base_iff. intros y. symmetry. apply V.
    Qed.
    Lemma observation_about : forall s e, wf_spe s -> tidy s -> observation s e -> forall x, In x (symbols e) -> own s x.
    Proof. intros s e W Td (_ & Sy & _) x Hx. destruct (Sy x Hx). now apply (tidy_own dlaw nominal derived cuts True). Qed.
    Lemma observation_univariate : forall s e, observation s e -> univariate e.
    Proof.
      intros s e (De & _). apply direct_cmps in De. destruct De as (_ & F). unfold univariate. eapply Forall_impl; [|exact F]. intros a (x & (_ & k & v & -> & _)). exists x. intros y [<-|[]]. reflexivity.
    Qed.
    Lemma observation_conditionable : forall s e, wf_spe s -> tidy s -> observation s e -> conditionable s e.
    Proof. intros s e W Td O. apply (direct_conditionable dlaw nominal cuts none); auto; [apply O|]. now apply observation_about. Qed.
    Lemma wide_not_leaf : forall s, wf_spe s -> tidy s -> two (base derived (vars s)) -> is_leaf s = false.
    Proof.
      intros s W Td (x & y & Bx & By & Ne). destruct (is_leaf s) eqn:Il; auto. exfalso. destruct (tidy_leaf_one dlaw nominal derived cuts True s W Td Il) as (z & Hz). apply Ne. rewrite (Hz x Bx), (Hz y By). reflexivity.
    Qed.
    Lemma observation_form : forall s e, wf_spe s -> tidy s -> observation s e -> leaf_form s e.
    Proof. intros s e W Td (_ & _ & [K|K]) Il; [|now left]. rewrite (wide_not_leaf s W Td K) in Il. discriminate. Qed.
    Lemma step_returns : forall fuel s e, (1 + 2 ^ List.length (etests e) <= fuel)%nat -> wf_spe s -> typed s -> tidy s -> observation s e -> 0 < prob dlaw s e -> exists t, step fuel s e = Ok t.
    Proof.
      intros fuel s e Hn W T Td Oe P. pose proof (observation_about s e W Td Oe) as Ab. pose proof (observation_form s e W Td Oe) as Lf. destruct (tidy_open nominal derived cuts True s Td) as (O & St). pose proof Oe as (De & _ & [K|K]).
      - destruct (products_ready nominal derived cuts True s (holds e) Td (wide_products dlaw nominal derived cuts True s W Td K)) as (Ot & Ev).
        assert (Cut : forall x r, ecuts e x r -> cuts x r) by (intros x r H; destruct (grid_named nominal cuts none e x r De H) as [Q|[]]; exact Q).
        apply (kept_condition_safe io so po fuel dlaw Ed (ids s) hash nominal envof ltac:(lia) (within s) (within_closed (ids s) s (Hid s)) (fun _ => True) (fun _ => True) cuts (ecuts e) (etests e) (fun x r _ H => grid_tests e x r H) Cut
          s e (within_self s) W T Ot St Ev (direct_kept nominal cuts none e De) Ab Lf ltac:(lia) (prob_den dlaw (ids s) hash s e W (proj1 De) Ab P) Memo). repeat split; constructor.
      - destruct (C25_conjunctions_partial io so po dlaw Ed (ids s) hash nominal envof cuts none fuel s e) as (t & Et & _); eauto; [lia|]. destruct e; try discriminate K. exact Logic.I.
    Qed.
    (** enough rounds of the loop that makes clauses disjoint *)
    Definition rounds (es : list tr) : nat := fold_right (fun e n => Nat.max (1 + 2 ^ List.length (etests e)) n) 1%nat es.
    Lemma rounds_one : forall es, (1 <= rounds es)%nat.
    Proof. induction es; cbn [rounds fold_right]; [lia|]. fold (rounds es). lia. Qed.
    Lemma session_returns : forall fuel es s, (rounds es <= fuel)%nat -> wf_spe s -> typed s -> tidy s -> Forall (observation s) es -> 0 < Pr s (all_hold es) ->
      exists t, observe (step fuel) es s = Ok t /\ wf_spe t /\ typed t /\ tidy t /\ (forall x, vars t x <-> vars s x) /\ given dlaw s (all_hold es) t.
    Proof.
      intros fuel. induction es as [|e es IH]; intros s Hn W T Td F P.
      - exists s. split; [reflexivity|]. assert (C : cond_ok dlaw nominal envof s (all_hold (N:=N) []) s) by (apply cond_ok_true; auto; intros w e []). destruct C as (_ & _ & _ & _ & G). split; auto. split; auto. split; auto. split; [tauto|exact G].
      - cbn [rounds fold_right] in Hn. fold (rounds es) in Hn. inversion F as [|? ? Oe F']; subst.
        assert (Le : Pr s (all_hold (e :: es)) <= prob dlaw s e).
        { apply (law_mono (den_kernel dlaw s W w0)); auto with bnd. intros a. unfold ind. destruct (dec (all_hold (e :: es) a)) as [H|], (dec (holds e a)) as [|H']; try lra. exfalso. apply H'. now apply all_cons in H. }
        destruct (step_returns fuel s e) as (s1 & E1); auto; [lia|lra|]. pose proof (observation_conditionable s e W Td Oe) as Ce.
        pose proof (fresh_condition io so po fuel dlaw Ed (ids s) hash nominal envof s e s1 W T (Hid s) Ce E1) as (W1 & V1 & T1 & P1 & G1).
        assert (Td1 : tidy s1) by (apply (condition_tidy io so po fuel (ids s) hash nominal derived cuts True s e Td Memo); auto; constructor).
        assert (Sq : simple (ind (all_hold es))).
        { apply all_simple. eapply Forall_impl; [|exact F']. intros f Of. split; [apply Of|now apply (observation_univariate s)]. }
        pose proof (G1 _ Sq w0) as G3.
        assert (Ea : den s (fun a => ind (all_hold es) a * ind (holds e) a) w0 = Pr s (all_hold (e :: es))).
        { unfold SpeSpec.Pr. f_equal. extensionality a. rewrite (ind_eq _ _ (all_hold (e :: es)) (fun a => holds e a /\ all_hold es a) a a) by apply all_cons. rewrite ind_and. ring. }
        destruct (IH s1) as (t & Et & Wt & Tt & Tdt & Vt & Gt); auto.
        + lia.
        + eapply Forall_impl; [|exact F']. intros f Of. now apply (observation_vars s).
        + change (den s1 (ind (all_hold es)) w0) with (Pr s1 (all_hold es)) in G3. rewrite Ea in G3. specialize (P1 w0). pose proof (law_01 (den_kernel dlaw s1 W1 w0) (all_hold es)) as B. destruct (Rle_lt_or_eq_dec _ _ (proj1 B)) as [K|K]; auto. exfalso. unfold SpeSpec.Pr in K, G3. rewrite <- K in G3. unfold SpeSpec.Pr in P. lra.
        + exists t. split; [cbn [observe]; rewrite E1; exact Et|]. split; auto. split; auto. split; auto. split; [intros x; now rewrite Vt|].
          intros f Sf w. pose proof (given_and s s1 t (holds e) (all_hold es) Sq G1 Gt f Sf w) as K. rewrite <- (ind_iff _ (all_hold (e :: es)) (fun a => holds e a /\ all_hold es a) (all_cons e es)) in K. exact K.
    Qed.
    (** a session runs to the end exactly if its observations are possible together *)
    Theorem C60_exactly_partial : forall fuel es s, (rounds es <= fuel)%nat -> wf_spe s -> typed s -> tidy s -> Forall (observation s) es ->
      ((exists t, observe (step fuel) es s = Ok t) <-> Pr s (all_hold es) <> 0).
    Proof.
      intros fuel es s Hn W T Td F. split.
      - intros (t & Ht). destruct (C60_steps fuel es s t W T) as (_ & _ & P & _); auto; [|lra]. eapply Forall_impl; [|exact F]. intros e Oe. split; [now apply observation_conditionable|now apply (observation_univariate s)].
      - intros Nz. destruct (session_returns fuel es s) as (t & Ht & _); eauto. pose proof (law_01 (den_kernel dlaw s W w0) (all_hold es)) as B. unfold SpeSpec.Pr in *. lra.
    Qed.
    (** and questions after it are answered, with the conditional probability given the observations *)
    Theorem C60_answers_partial : forall fuel es s, (rounds es <= fuel)%nat -> wf_spe s -> typed s -> tidy s -> Forall (observation s) es -> 0 < Pr s (all_hold es) ->
      exists t, observe (step fuel) es s = Ok t /\
        forall q, observation s q -> exists p, ask fuel t q = Ok p /\ toP p * Pr s (all_hold es) = Pr s (fun w => holds q w /\ all_hold es w).
    Proof.
      intros fuel es s Hn W T Td F P. destruct (session_returns fuel es s) as (t & Ht & Wt & Tt & Tdt & Vt & Gt); auto. exists t. split; auto. intros q Oq.
      pose proof (observation_vars s t q Vt Oq) as Oq'. pose proof (observation_about t q Wt Tdt Oq') as Ab. pose proof (observation_form t q Wt Tdt Oq') as Lf. destruct (tidy_open nominal derived cuts True t Tdt) as (O & _). pose proof (rounds_one es).
      assert (A : exists p, ask fuel t q = Ok p /\ toP p = prob dlaw t q).
      { pose proof Oq' as (Dq & _ & [K|K]).
        - destruct (products_ready nominal derived cuts True t (holds q) Tdt (wide_products dlaw nominal derived cuts True t Wt Tdt K)) as (Ot & _).
          apply (C54_answers_partial io po fuel dlaw (ids t) hash nominal cuts none ltac:(lia) t q); auto.
        - apply (C54_conjunctions_partial io po fuel dlaw (ids t) hash nominal cuts none ltac:(lia) t q); auto. destruct q; try discriminate K. exact Logic.I. }
      destruct A as (p & Ep & Tp). exists p. split; auto. rewrite Tp. unfold prob, SpeSpec.Pr. rewrite (Gt (ind (holds q))) by (apply event_simple; [apply Oq|now apply (observation_univariate s)]).
      f_equal. extensionality a. symmetry. apply ind_and.
    Qed.
  End Comparisons.
End Properties.

Definition all_session_properties := (@C60_steps, @C60_order, @C60_joint, @C60_exactly_partial, @C60_answers_partial).
Print Assumptions all_session_properties.
