(** Property C55 for programs with Conditions on functions of variables. *)
From Coq Require Import List Bool String Reals Lra Lia ZArith PeanoNat.
From Verif Require Import Base Num Sets SetSpec SetIv SetProofs SetOr SetOps SetAlg SetBuilt
  Poly Trans TransSpec TransFacts PolyProofs InvProofs InvMain EvProofs ArithProofs
  Dnf DnfSpec DnfProofs DnfUnion PropDnf Logs Spe SpeSpec SpeFacts SpeRect LeafProofs LeafEvents LeafCond SpeCons LeafGiven MemoProofs
  NormSorts LogprobProofs LogprobTop SpeEq SimplifyProofs CondTypes CondProofs CondTop PropSpe SpeOps OpsProofs BuildProofs TransformProofs PropCons Prog ProgSpec ProgEvents ProgProofs PropProg
  TotalSpec TotalEnds TotalSets TotalSolve TotalProofs PropTotal TotalUnion TotalGrid CondLeafTotal SimplifyTotal TightUnion Diffuse CondTotal PropCondTotal BranchTotal ReturnSpec SwitchTotal ReturnProofs
  CondShape TransformTotal TransformShape CompileSpec CompileProofs SessionSpec PropSession SolveSpec AskSpec PropAsk FunSpec FunTotal PropFun PropSessionFun CompileFunSpec.
Import ListNotations.
Local Open Scope R_scope.

Section Properties.
  Context {N : numsys} {S : logsys} {D : distsys N S} (io : iterorder N) (so : strorder) (po : polyoracle N).
  Context (dlaw : dist D -> (fval -> R) -> R) (Ed : eq_dist dlaw).
  Context (hash : spe D -> Z) (ids : spe D -> spe D -> nat) (no_simplify : bool) (nominal derived : string -> bool) (cuts : string -> R -> Prop).
  Notation spe := (spe D).
  Notation tr := (tr N).
  Notation den := (den dlaw).
  Notation none := (fun (_ : string) (_ : R) => False).
  Notation stands := (stands dlaw nominal).
  Notation base := (base derived).
  Notation tidy := (tidy (D:=D) nominal derived cuts).
  Notation admits := (admits po dlaw nominal derived cuts).
  Notation posed := (posed po nominal cuts none).
  Notation interpret fuel := (interpret io so po fuel hash ids no_simplify).
  Notation claim := (claim io so po dlaw hash ids no_simplify nominal derived cuts).
  Context (Hid : forall s, distinct (ids s) s).
  Context (Hh : no_simplify = true \/ forall a b, is_leaf a = true -> is_leaf b = true -> hash a = hash b -> speqb (D:=D) a b = true).

  (** what a Condition or a question needs from the expression *)
  Lemma stands_two : forall s V K, stands (Some s) V K -> two (base V) -> two (base (vars s)).
  Proof. intros s V K (_ & _ & Vs & _) Tw. apply (two_iff (base V)); auto. apply base_iff. intros x. symmetry. apply Vs. Qed.
  Lemma tidy_true : forall (pr : Prop) s, pr -> tidy pr s -> tidy True s.
  Proof. intros pr s _. now apply tidy_mono. Qed.
  Lemma posed_surely : forall s V K e, stands (Some s) V K -> posed e -> sure K (regular true e) -> surely dlaw s (regular true e).
  Proof. intros s V K e St P Sr. apply (sure_surely dlaw nominal s V K); auto. apply regular_simple; [apply P|now apply (posed_univariate po nominal cuts)]. Qed.
  Lemma condition_claim : forall e (V : string -> Prop) K m, two (base V) -> posed e -> conjunctive e -> Forall thin (lits e) ->
    (forall x, In x (symbols e) -> base V x) -> sure K (regular true e) -> chance K (holds e) -> claim (Condition e) V K m V None.
  Proof.
    intros e V K m Tw Pe Cj Th Sy Sr Ch. pose proof Tw as (z & _ & (Vz & _) & _).
    pose proof (posed_univariate po nominal cuts e Pe) as Un.
    assert (Own : forall s, stands (Some s) V K -> tidy (two (base V)) s -> forall x, In x (symbols e) -> own s x).
    { intros s (Ws & _ & Vs & _) Td x Hx. destruct (Sy x Hx) as (Vx & Dx). apply (tidy_own dlaw nominal derived cuts (two (base V))); auto. now apply Vs. }
    split.
    - intros o St Sh. destruct (stands_some dlaw nominal o V K z St Vz) as (s & ->). destruct Sh as (Td & _). apply fits_condition; auto. split; [apply Pe|]. split; auto. split; [|intros x Hx; now apply Sy].
      apply (posed_conditionable po dlaw nominal cuts none no_env s e); auto; [apply St|now apply (posed_surely s V K)].
    - exists 2%nat. intros fuel o Hf St Sh. destruct (stands_some dlaw nominal o V K z St Vz) as (s & ->). destruct Sh as (Td & _). pose proof (Own s St Td) as V'. pose proof (posed_surely s V K e St Pe Sr) as Sr'. pose proof St as (Ws & Ts & Vs & Dk).
      assert (Pos : 0 < prob dlaw s e).
      { apply (chance_pos dlaw nominal s V K); auto; [apply event_simple; [apply Pe|exact Un]|]. intros w. apply den_closed; auto. intros a b E. apply ind_eq. unfold holds. rewrite (teval_agree e a b); [reflexivity|apply Pe|]. intros x Hx. apply E. intros K0. apply K0, Vs. now apply Sy. }
      destruct (tidy_open nominal derived cuts _ s Td) as (O & Sd).
      assert (Il : is_leaf s = false) by (apply (wide_not_leaf dlaw nominal derived cuts s Ws (tidy_true _ s Tw Td)); now apply (stands_two s V K)).
      destruct (C58_condition_partial io so po fuel dlaw Ed (ids s) hash nominal cuts none no_env Hf s e Ws Ts (Hid s) Il O Sd Pe Cj Th V' Sr' Pos) as (t & Et & _).
      exists (Some t). cbn [Prog.interpret on]. change (fst (condition io so po fuel (ids s) hash s e Memo) = Ok t) in Et. rewrite Et. split; auto. split; [|apply as_none].
      apply (condition_tidy io so po fuel (ids s) hash nominal derived cuts (two (base V)) s e Td Memo); auto. constructor.
  Qed.
  Lemma admits_claim : forall c V K m W m', admits c V K m W m' -> claim c V K m W m'.
  Proof.
    induction 1.
    - now apply compile_ok.
    - now apply condition_claim.
    - apply (if_claim io so po dlaw Ed hash ids no_simplify nominal derived cuts Hid Hh es); auto.
    - apply switch_claim; auto.
    - now apply for_claim.
    - eapply cons_claim; eauto.
  Qed.
  Lemma admits_run : forall c W m', admits c (fun _ => False) start None W m' ->
    exists rounds, forall fuel, (rounds <= fuel)%nat -> exists o, interpret fuel c None = Ok o /\ stands o W (meaning dlaw c start) /\ shaped nominal derived cuts o W m'.
  Proof.
    intros c W m' C. destruct (admits_claim _ _ _ _ _ _ C) as (Ft & k & Hk).
    assert (St : stands (None : option spe) (fun _ => False) start) by (split; [intros x []|reflexivity]). exists k. intros fuel Hf. destruct (Hk fuel None Hf St Logic.I) as (o & Eo & So). exists o. split; auto. split; auto.
    destruct (run_ok io so po fuel dlaw Ed hash ids no_simplify nominal Hid Hh c _ _ _ (Ft None St Logic.I) None o St Eo) as (Sw & _). exact Sw.
  Qed.
  (** The program runs to its end, and the expression has the variables and the distribution of
      the program. *)
  Theorem C55_functions_partial : forall c W m', admits c (fun _ => False) start None W m' ->
    exists rounds, forall fuel, (rounds <= fuel)%nat -> exists o, interpret fuel c None = Ok o /\
      match o with
      | Some s => wf_spe dlaw s /\ (forall x, vars s x <-> W x) /\ forall f w, simple f -> den s f w = meaning dlaw c start f w
      | None => (forall x, ~ W x) /\ forall f w, meaning dlaw c start f w = f w
      end.
  Proof.
    intros c W m' C. destruct (admits_run c W m' C) as (k & Hk). exists k. intros fuel Hf. destruct (Hk fuel Hf) as (o & Eo & So & _). exists o. split; auto. destruct o as [s|]; [|exact So]. destruct So as (A & _ & B & K). auto.
  Qed.
  (** When the program samples at least two variables, the expression then answers every question
      that combines comparisons of sampled variables and of functions of them, which are almost surely
      used inside their domains, with the probability under the program. *)
  Theorem C55_function_answers_partial : forall c W m', admits c (fun _ => False) start None W m' -> two (base W) ->
    exists rounds, forall fuel, (rounds <= fuel)%nat -> exists s, interpret fuel c None = Ok (Some s) /\
      forall q fuel', (2 <= fuel')%nat -> posed q -> (forall x, In x (symbols q) -> base W x) -> sure (meaning dlaw c start) (regular true q) ->
      exists p, fresh (logprob io po fuel' (ids s) s q) = Ok p /\ forall w, toP p = meaning dlaw c start (ind (holds q)) w.
  Proof.
    intros c W m' C Tw. destruct (admits_run c W m' C) as (k & Hk). exists k. intros fuel Hf. destruct (Hk fuel Hf) as (o & Eo & So & Sh). pose proof Tw as (x & _ & (Wx & _) & _).
    destruct o as [s|]; [|destruct (proj1 So x Wx)]. exists s. split; auto. destruct Sh as (Td & _). intros q fuel' Hf' Pq Sy Sr. pose proof (posed_surely s W _ q So Pq Sr) as Sr'. pose proof (stands_two s W _ So Tw) as Tv. pose proof So as (Ws & Ts & Vs & Dk). apply (tidy_true _ s Tw) in Td.
    destruct (products_ready nominal derived cuts True s (holds q) Td (wide_products dlaw nominal derived cuts True s Ws Td Tv)) as (Ot & _).
    destruct (C58_answers_partial io po fuel' dlaw (ids s) hash nominal cuts none Hf' s q Ws (Hid s) (wide_not_leaf dlaw nominal derived cuts s Ws Td Tv)) as (p & Ep & Tp); auto.
    { apply (tidy_prepared po nominal derived cuts); auto. intros y Hy. now apply Sy. }
    { intros y Hy. apply Vs. now apply Sy. }
    exists p. split; auto. intros w. rewrite Tp by auto. rewrite <- Dk by (apply event_simple; [apply Pq|now apply (posed_univariate po nominal cuts)]). symmetry. apply den_closed; auto.
    intros a b E. apply ind_eq. unfold holds. rewrite (teval_agree q a b); [reflexivity|apply Pq|]. intros y Hy. apply E. intros K0. apply K0, Vs. now apply Sy.
  Qed.
End Properties.
