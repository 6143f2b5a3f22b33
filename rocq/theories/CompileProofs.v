(** The programs of the class run, and their expressions stay in shape. *)
From Coq Require Import List Bool String Reals Lra Lia ZArith PeanoNat Classical.
From Verif Require Import Base Num Sets SetSpec SetIv SetProofs SetOr SetOps SetAlg SetBuilt
  Poly Trans TransSpec TransFacts PolyProofs InvProofs InvMain EvProofs ArithProofs
  Dnf DnfSpec DnfProofs DnfUnion PropDnf Logs Spe SpeSpec SpeFacts SpeRect LeafProofs LeafEvents LeafCond SpeCons LeafGiven MemoProofs
  NormSorts LogprobProofs LogprobTop SpeEq SimplifyProofs CondTypes CondProofs CondTop PropSpe SpeOps OpsProofs BuildProofs TransformProofs PropCons Prog ProgSpec ProgEvents ProgProofs PropProg
  TotalSpec TotalEnds TotalSets TotalSolve TotalProofs PropTotal TotalUnion TotalGrid CondLeafTotal SimplifyTotal TightUnion Diffuse CondTotal PropCondTotal BranchTotal ReturnSpec SwitchTotal ReturnProofs
  CondShape TransformTotal TransformShape CompileSpec.
Import ListNotations.
Local Open Scope R_scope.

(** a bound for finitely many *)
Lemma bound_all : forall A (l : list A) (Q : A -> nat -> Prop), (forall a j k, (j <= k)%nat -> Q a j -> Q a k) -> (forall a, In a l -> exists k, Q a k) -> exists k, forall a, In a l -> Q a k.
Proof.
  induction l as [|a l IH]; intros Q Mono H; [exists 0%nat; intros ? []|]. destruct (IH Q Mono) as (k & Hk); [intros; apply H; now right|]. destruct (H a (or_introl eq_refl)) as (j & Hj).
  exists (Nat.max j k). intros b [<-|Hb]; [apply (Mono a j); auto; lia|apply (Mono b k); auto; lia].
Qed.

Section Shape.
  Context {N : numsys} {S : logsys} {D : distsys N S} (dlaw : dist D -> (fval -> R) -> R) (nominal derived : string -> bool) (cuts : string -> R -> Prop).
  Notation spe := (spe D).
  Notation wf_spe := (wf_spe dlaw).
  Notation none := (fun (_ : string) (_ : R) => False).
  Notation tidy := (tidy (D:=D) nominal derived cuts).
  Notation base := (base derived).

  Lemma tidy_open : forall pr s, tidy pr s -> open_leaves nominal cuts false s /\ steady cuts none s.
  Proof.
    intros pr. induction s using spe_ind'; intros T; pose proof (every_here _ _ T) as P; cbn in P.
    - destruct P as ((P1 & P2) & P3). split; [split; auto; discriminate|]. intros Hd r [K|[]]. auto.
    - destruct P as (P1 & _ & P2). split; [split; auto; intros y Hy; apply (P2 y Hy)|exact Logic.I].
    - split; [apply P|exact Logic.I].
    - split; cbn [open_leaves steady]; apply all_forall; intros c Hc; apply H; auto; eapply every_sum; eauto.
    - split; cbn [open_leaves steady]; apply all_forall; intros c Hc; apply H; auto; eapply every_prod; eauto.
  Qed.
  Lemma tidy_own : forall pr s x, wf_spe s -> tidy pr s -> vars s x -> derived x = false -> own s x.
  Proof.
    intros pr. induction s using spe_ind'; intros y W T V Dy; pose proof (every_here _ _ T) as P; cbn in P; cbn [own vars] in *.
    - destruct P as ((_ & _ & P) & _). destruct (P y V) as (_ & [->|K]); congruence.
    - destruct P as (_ & _ & P). destruct (P y V) as (_ & [->|K]); congruence.
    - now symmetry.
    - apply all_forall. intros c Hc. apply (H c Hc); auto; [now apply (sum_wf dlaw l)|exact (every_sum _ l c T Hc)|]. now apply (sum_vars dlaw l c W Hc).
    - apply pvars_in in V. destruct V as (c & Hc & V). apply any_iff. exists c. split; auto. apply (H c Hc); auto; [now apply (prod_wf dlaw l)|exact (every_prod _ l c T Hc)].
  Qed.
  Lemma tidy_leaf_one : forall pr s, wf_spe s -> tidy pr s -> is_leaf s = true -> exists x, forall y, base (vars s) y -> y = x.
  Proof.
    intros pr s W T Il. destruct s as [disc x d supp cond env|x a env|x ws|l|l]; try discriminate Il; exists x; intros y (Vy & Dy); pose proof (tidy_own pr _ y W T Vy Dy) as O; cbn [own] in O; now symmetry.
  Qed.
  (** at least two sampled variables: the summands are products *)
  Lemma wide_products : forall pr s, wf_spe s -> tidy pr s -> two (base (vars s)) -> Forall (fun c => is_product c = true) (summands s).
  Proof.
    intros pr s W T (x & y & (Vx & Dx) & (Vy & Dy) & Ne).
    assert (K : forall c, wf_spe c -> tidy pr c -> vars c x -> vars c y -> is_sum c = false -> is_product c = true).
    { intros c Wc Tc Cx Cy Nc. destruct (is_leaf c) eqn:Il; [|destruct c; auto; discriminate]. destruct (tidy_leaf_one pr c Wc Tc Il) as (z & Hz). exfalso. apply Ne. transitivity z; [apply Hz; now split|symmetry; apply Hz; now split]. }
    destruct s as [disc z d supp cond env|z a env|z ws|l|l]; cbn [summands]; try (constructor; [apply K; auto|constructor]).
    pose proof (proj1 (tidy_sum _ _ _ _ l) T) as F. rewrite Forall_forall in F. apply Forall_map, Forall_forall. intros c Hc. destruct (F c Hc) as (Tc & Nc).
    apply K; auto; [now apply (sum_wf dlaw l)| |]; now apply (sum_vars dlaw l c W Hc).
  Qed.
  (** no products: the summands are leaves *)
  Lemma narrow_leaves : forall pr s, tidy pr s -> ~ pr -> Forall (fun c => is_leaf c = true) (summands s).
  Proof.
    intros pr s T Np. assert (K : forall c, tidy pr c -> is_sum c = false -> is_leaf c = true).
    { intros c Tc Nc. destruct c; auto; try discriminate. exfalso. apply Np. apply (every_here _ _ Tc). }
    destruct s as [disc z d supp cond env|z a env|z ws|l|l]; cbn [summands]; try (constructor; [apply K; auto|constructor]).
    pose proof (proj1 (tidy_sum _ _ _ _ l) T) as F. rewrite Forall_forall in F. apply Forall_map, Forall_forall. intros c Hc. destruct (F c Hc) as (Tc & Nc). auto.
  Qed.
  Lemma products_ready : forall pr s P, tidy pr s -> Forall (fun c => is_product c = true) (summands s) -> open_leaves nominal cuts true s /\ even P s.
  Proof.
    intros pr s P T F. destruct (tidy_open pr s T) as (O & _). destruct s as [disc z d supp cond env|z a env|z ws|l|l]; cbn [summands] in F; try (inversion F; discriminate); [|split; [exact O|exact Logic.I]].
    rewrite Forall_map, Forall_forall in F. split.
    - cbn [open_leaves] in *. apply all_forall. intros c Hc. pose proof (All_In _ _ _ c O Hc) as Oc. cbn beta in Oc. specialize (F c Hc). destruct c as (c, w). cbn [fst] in *. destruct c; try discriminate F. exact Oc.
    - left. cbn [lumpy]. apply all_forall. intros c Hc. specialize (F c Hc). destruct c as (c, w). cbn [fst] in *. destruct c; try discriminate F. exact Logic.I.
  Qed.
  Lemma nominal_ready : forall pr s, wf_spe s -> tidy pr s -> (forall x, base (vars s) x -> nominal x = true) -> open_leaves nominal cuts true s /\ lumpy s.
  Proof.
    intros pr. induction s using spe_ind'; intros W T Hn; pose proof (every_here _ _ T) as P; cbn in P.
    - exfalso. destruct P as ((P1 & P2 & _) & _). rewrite (Hn x) in P1; [discriminate|]. split; auto. cbn [vars]. apply (built_self x). apply W.
    - exfalso. destruct P as (P1 & P2 & _). rewrite (Hn x) in P1; [discriminate|]. split; auto. cbn [vars]. apply (built_self x). apply W.
    - split; [apply P|exact Logic.I].
    - assert (K : forall c, In c l -> open_leaves nominal cuts true (fst c) /\ lumpy (fst c)).
      { intros c Hc. apply H; auto; [now apply (sum_wf dlaw l)|exact (every_sum _ l c T Hc)|]. intros x (Hx & Dx). apply Hn. split; auto. now apply (sum_vars dlaw l c W Hc). }
      split; cbn [open_leaves lumpy]; apply all_forall; intros c Hc; now apply K.
    - split; [|exact Logic.I]. exact (proj1 (tidy_open pr _ T)).
  Qed.
  (** what an expression of the class can be asked about *)
  Definition as_made (s : spe) (made : option spe) : Prop :=
    forall l P, made = Some l -> open_leaves nominal cuts true l -> even P l -> open_leaves nominal cuts true s /\ even P s.
  Lemma as_none : forall s, as_made s None.
  Proof. intros s l P K. discriminate. Qed.
  Lemma tidy_some : forall pr s, wf_spe s -> tidy pr s -> exists x, base (vars s) x.
  Proof.
    intros pr. induction s using spe_ind'; intros W T; pose proof (every_here _ _ T) as P; cbn in P.
    - exists x. split; [|apply P]. cbn [vars]. apply (built_self x). apply W.
    - exists x. split; [|apply P]. cbn [vars]. apply (built_self x). apply W.
    - exists x. split; [reflexivity|apply P].
    - destruct l as [|c l]; [destruct W as (_ & W & _); cbn in W; exfalso; lra|]. destruct (H c (in_eq _ _)) as (x & Vx & Dx); [now apply (sum_wf dlaw (c :: l)), in_eq|exact (every_sum _ _ c T (in_eq _ _))|].
      exists x. split; auto.
    - destruct l as [|c l]; [destruct W as (W & _); now destruct W|]. destruct (H c (in_eq _ _)) as (x & Vx & Dx); [now apply (prod_wf dlaw (c :: l)), in_eq|exact (every_prod _ _ c T (in_eq _ _))|].
      exists x. split; auto. apply pvars_in. exists c. split; auto. apply in_eq.
  Qed.
  Lemma ready : forall V made P s, wf_spe s -> (forall x, vars s x <-> V x) -> tidy (two (base V)) s -> as_made s made -> divisible nominal derived cuts V made P ->
    open_leaves nominal cuts true s /\ steady cuts none s /\ even P s.
  Proof.
    intros V made P s W Vs T Hm Dv. destruct (tidy_open _ s T) as (_ & St). destruct Dv as [(x & y & (Vx & Dx) & (Vy & Dy) & Ne)|[Hn|(l & El & O & Ev)]].
    - destruct (products_ready _ s P T) as (O & Ev); [|auto]. apply (wide_products _ s W T). exists x, y. split; [split; [now apply Vs|exact Dx]|]. split; [split; [now apply Vs|exact Dy]|exact Ne].
    - destruct (nominal_ready _ s W T) as (O & Lu); [intros x (Hx & Dx); apply Hn; split; auto; now apply Vs|]. split; auto. split; auto. destruct s as [disc z d supp cond env|z a env|z ws|l|l]; cbn [even]; try exact Logic.I; [|now left].
      intros _. exfalso. pose proof (every_here _ _ T) as Q. cbn in Q. destruct Q as ((Q1 & Q2 & _) & _). rewrite (Hn z) in Q1; [discriminate|]. split; auto. apply Vs. cbn [vars]. apply (built_self z). apply W.
    - destruct (Hm l P El O Ev). auto.
  Qed.
  Lemma two_iff : forall V V' : string -> Prop, (forall x, V x <-> V' x) -> two V -> two V'.
  Proof. intros V V' H (x & y & Vx & Vy & Ne). exists x, y. rewrite <- !H. auto. Qed.
  Lemma two_mono : forall V V' : string -> Prop, (forall x, V x -> V' x) -> two V -> two V'.
  Proof. intros V V' H (x & y & Vx & Vy & Ne). exists x, y. auto. Qed.
  Lemma base_iff : forall V V' : string -> Prop, (forall x, V x <-> V' x) -> forall x, base V x <-> base V' x.
  Proof. intros V V' H x. unfold CompileSpec.base. now rewrite H. Qed.
  Lemma tidy_mono : forall (p q : Prop) s, (p -> q) -> tidy p s -> tidy q s.
  Proof. intros p q s I T. eapply every_impl; [|exact T]. intros [| | | |] K; auto. cbn in *. auto. Qed.
  Lemma leaf_tidy : forall pr x l, is_leaf l = true -> wf_spe l -> typed (D:=D) nominal no_env l -> (forall z, vars l z -> z = x) -> derived x = false -> open_leaves nominal cuts false l -> steady cuts none l -> tidy pr l.
  Proof.
    intros pr x l Il W Ty V Dx O St. pose proof (every_here _ _ Ty) as P. apply every_leaf; auto.
    destruct l as [disc z d supp cond env|z a env|z ws|l|l]; try discriminate Il; cbn [vars] in V.
    - assert (Ez : z = x) by (apply V, (built_self z); apply W). subst z. split; [|intros Hd r Hr; apply (St Hd); now left]. split; [apply O|]. split; [exact Dx|]. intros y Hy. split; [now apply P|]. left. now apply V.
    - assert (Ez : z = x) by (apply V, (built_self z); apply W). subst z. split; [exact (proj1 O)|]. split; [exact Dx|]. intros y Hy. split; [now apply O|]. left. now apply V.
    - split; [exact O|]. now rewrite (V z eq_refl).
  Qed.
  Lemma leafy_tidy : forall pr x l, leafy l -> wf_spe l -> typed (D:=D) nominal no_env l -> (forall z, vars l z -> z = x) -> derived x = false -> open_leaves nominal cuts false l -> steady cuts none l -> tidy pr l.
  Proof.
    intros pr x l [Il|(cs & -> & F)] W Ty V Dx O St; [now apply (leaf_tidy pr x)|]. apply tidy_sum. rewrite Forall_forall in *. intros c Hc. cbn [open_leaves steady] in O, St. split.
    - apply (leaf_tidy pr x); auto; [now apply (sum_wf dlaw cs)|exact (every_sum _ cs c Ty Hc)| |exact (All_In _ _ _ _ O Hc)|exact (All_In _ _ _ _ St Hc)]. intros z Hz. apply V. now apply (sum_vars dlaw cs c W Hc).
    - specialize (F c Hc). now destruct (fst c).
  Qed.
  Lemma tidy_joinable : forall no_simplify W s, wf_spe s -> typed nominal no_env s -> (forall x, vars s x <-> W x) -> tidy (two (base W)) s ->
    joinable dlaw no_simplify nominal no_env W (negb (decb (two (base W)))) s.
  Proof.
    intros ns W s Ws Ts Vs T. split; auto. split; auto. split; auto. right. destruct (decb (two (base W))) eqn:E; cbn [negb].
    - apply (proj1 (decb_true _)) in E. apply (wide_products _ s Ws T). apply (two_iff (base W)); [intros x; symmetry; now apply base_iff|exact E].
    - apply (proj1 (decb_false _)) in E. exact (narrow_leaves _ s T E).
  Qed.
  (** what conditioning gives in the block of branches *)
  Lemma branches_tidy : forall io so po fuel hash ids pr s evs subs rows, tidy pr s -> if_branches io so po fuel hash ids s evs subs = Ok rows -> Forall (fun r => tidy pr (fst (fst r))) rows.
  Proof.
    intros io so po fuel hash ids pr s evs subs rows T H. unfold if_branches in H.
    match type of H with fst (?m _) = _ => assert (K : sat (tidied (D:=D) nominal derived cuts pr) m (fun rows => Forall (fun r => tidy pr (fst (fst r))) rows)) end; [|apply (K Memo); [constructor|exact H]].
    eapply sat_bind with (P := fun _ => True); [eapply sat_weaken; [apply sat_mmap with (P := fun _ _ => True)|auto]|].
    - intros [e|] _; [apply keeps_logprob|now apply sat_ret].
    - intros ws _. eapply sat_bind with (P := fun _ => True); [now apply sat_lift|]. intros _ _. eapply sat_weaken; [apply sat_mmap with (P := fun _ r => tidy pr (fst (fst r)))|].
      + intros p _. destruct (fst (fst p)) as [e|]; [|apply sat_lift; discriminate]. eapply sat_bind; [now apply condition_tidy|]. intros t Tt. now apply sat_ret.
      + intros rs F. clear -F. induction F; auto.
  Qed.
End Shape.

Section Run.
  Context {N : numsys} {S : logsys} {D : distsys N S} (io : iterorder N) (so : strorder) (po : polyoracle N).
  Context (dlaw : dist D -> (fval -> R) -> R) (Ed : eq_dist dlaw).
  Context (hash : spe D -> Z) (ids : spe D -> spe D -> nat) (no_simplify : bool) (nominal derived : string -> bool) (cuts : string -> R -> Prop).
  Notation spe := (spe D).
  Notation tr := (tr N).
  Notation command := (command (N:=N) (D:=D)).
  Notation den := (den dlaw).
  Notation wf_spe := (wf_spe dlaw).
  Notation surely := (surely dlaw).
  Notation typed := (typed (D:=D) nominal no_env).
  Notation stands := (stands dlaw nominal).
  Notation meaning := (meaning dlaw).
  Notation fits := (ProgSpec.fits dlaw nominal).
  Notation tidy := (tidy (D:=D) nominal derived cuts).
  Notation base := (base derived).
  Notation compiles := (compiles dlaw nominal derived cuts).
  Notation divisible := (divisible nominal derived cuts).
  Notation none := (fun (_ : string) (_ : R) => False).
  Notation interpret fuel := (interpret io so po fuel hash ids no_simplify).
  Notation case := ((asg -> Prop) * command)%type.
  Context (Hid : forall s, distinct (ids s) s).
  Context (Hh : no_simplify = true \/ forall a b, is_leaf a = true -> is_leaf b = true -> hash a = hash b -> speqb (D:=D) a b = true).

  Lemma case_given : forall fuel pr s (marks : string -> R -> Prop) probes (q : case) o, (1 <= fuel)%nat -> wf_spe s -> typed s -> open_leaves nominal cuts true s -> steady cuts none s -> tidy pr s ->
    (forall x r, nominal x = false -> marks x r -> In (is_below x r) probes /\ In (is_at x r) probes) -> (forall x r, marks x r -> cuts x r) -> (2 ^ List.length probes <= fuel)%nat ->
    event_at nominal s (proper nominal s) q o -> asked_for nominal marks probes s o -> even (fst q) s -> 0 < Pr dlaw s (fst q) ->
    exists c, cond_ok dlaw nominal no_env s (fst q) c /\ tidy pr c.
  Proof.
    intros fuel pr s marks probes q o Hf W T O St Td Mk Cut Hn Eq As Ev Pq. pose proof (proper_sure dlaw nominal no_env s W T) as SA.
    pose proof (case_answers io so po fuel dlaw Ed hash ids nominal Hid Hf cuts no_env s marks probes q o W T O St Mk Cut Hn Eq As (fun _ => Ev)) as An.
    destruct o as [e|].
    - destruct An as (_ & Sc). destruct (Sc Pq Memo (fresh_valid dlaw (ids s) nominal no_env (within s))) as (t & Et). exists t. split.
      + apply (event_given dlaw hash nominal no_env s W (proper nominal s) SA q e); auto.
        pose proof (within_closed (ids s) s (Hid s)) as Uc.
        apply (condition_valid io so po fuel dlaw Ed (ids s) hash nominal no_env (within s) Uc s e Memo); auto; [apply within_self|now apply (event_conditionable dlaw nominal s W (proper nominal s) q)|apply fresh_valid].
      + apply (condition_tidy io so po fuel (ids s) hash nominal derived cuts pr s e Td Memo); auto. constructor.
    - exfalso. pose proof (event_pr dlaw nominal s W (proper nominal s) SA q None w0 Eq) as Z. unfold Pr in Pq. rewrite Z in Pq. lra.
  Qed.

  (** the expression of a program of the class *)
  Definition shaped (o : option spe) (V : string -> Prop) (made : option spe) : Prop :=
    match o with Some s => tidy (two (base V)) s /\ as_made nominal cuts s made | None => True end.
  Lemma stands_some : forall o V K z, stands o V K -> V z -> exists s, o = Some s.
  Proof. intros [s|] V K z St Vz; eauto. destruct St as (Ne & _). destruct (Ne z Vz). Qed.
  Lemma kernel_null : forall s V K (P : asg -> Prop), stands (Some s) V K -> (forall a, P a) -> sure K P.
  Proof.
    intros s V K P (W & _ & _ & Dk) H w. transitivity (K (fun _ => 0) w).
    - f_equal. apply FunctionalExtensionality.functional_extensionality. intros a. apply ind_false. intros K'. auto.
    - rewrite <- Dk by constructor. apply (law_const (den_kernel dlaw s W w)).
  Qed.
  Lemma kernel_sure : forall s V K P, stands (Some s) V K -> simple (ind P) -> surely s P -> sure K P.
  Proof. intros s V K P (_ & _ & _ & Dk) Sp H w. rewrite <- Dk by now apply simple_ind_not. apply H. Qed.
  Lemma plain_ask : forall (s : spe) V (e : tr), (forall x, vars s x <-> V x) -> plain_event nominal derived cuts V e -> ask_ok nominal V e.
  Proof.
    intros s V e Vs (De & Sy). pose proof (direct_cmps nominal cuts none e De) as Ce. split; [apply De|]. split.
    - destruct Ce as (_ & Ce). eapply Forall_impl; [|exact Ce]. intros a (x & (_ & k & v & -> & _)). exists x. intros y [<-|[]]. reflexivity.
    - split; [now apply (cmps_sorts nominal cuts none)|]. intros x Hx. now apply Sy.
  Qed.
  Lemma plain_regular : forall V (e : tr) g w, plain_event nominal derived cuts V e -> regular g e w.
  Proof. intros V e g w (De & _). apply on_vars_regular; [apply De|]. apply (cmps_on_vars nominal cuts none). now apply direct_cmps. Qed.
  Lemma chance_pos : forall s V K P, stands (Some s) V K -> simple (ind P) -> (forall w, den s (ind P) w = Pr dlaw s P) -> chance K P -> 0 < Pr dlaw s P.
  Proof.
    intros s V K P (W & _ & _ & Dk) Sp C (w & H). rewrite <- Dk, C in H by auto. assert (0 <= Pr dlaw s P) by apply (law_01 (den_kernel dlaw s W w0)). lra.
  Qed.
  Lemma pos_chance : forall s V K P, stands (Some s) V K -> simple (ind P) -> 0 < Pr dlaw s P -> chance K P.
  Proof. intros s V K P (W & _ & _ & Dk) Sp H. exists w0. rewrite <- Dk by auto. unfold Pr in H. lra. Qed.
  Lemma conditioned_ok : forall s P c, (forall w, den s (ind P) w = Pr dlaw s P) -> conditioned dlaw nominal no_env s P c -> cond_ok dlaw nominal no_env s P c.
  Proof. intros s P c C (A1 & A2 & A3 & A4 & A5). split; auto. split; auto. split; auto. split; auto. intros w. now rewrite C. Qed.

  (** a block of branches *)
  Section Cases.
    Context {X : Type} (l : list X) (P : X -> asg -> Prop) (c : X -> command) (V W : string -> Prop) (K : kernel) (made : option spe).
    Notation firsts := (firsts (map (fun x => (P x, c x)) l)).
    Definition claim (c : command) (V : string -> Prop) (K : kernel) (m : option spe) (W : string -> Prop) (m' : option spe) : Prop :=
      (forall o, stands o V K -> shaped o V m -> fits c V K W) /\
      exists k, forall fuel o, (k <= fuel)%nat -> stands o V K -> shaped o V m -> exists o', interpret fuel c o = Ok o' /\ shaped o' W m'.
    Context (Sp : forall x, In x l -> simple (ind (P x))) (z : string) (Vz : V z).
    Context (Dv : forall Q d, In (Q, d) firsts -> chance K Q -> divisible V made Q).
    Context (Sub : forall Q d, In (Q, d) firsts -> chance K Q -> claim d V (restrict K Q) None W None).
    Lemma cases_simple : forall q, In q firsts -> simple (ind (fst q)).
    Proof. apply firsts_simple. intros p Hp. apply in_map_iff in Hp. destruct Hp as (x & <- & Hx). cbn [fst]. auto. Qed.
    Lemma cases_bound : exists k, forall fuel Q d o, (k <= fuel)%nat -> In (Q, d) firsts -> chance K Q -> stands o V (restrict K Q) -> shaped o V None -> exists o', interpret fuel d o = Ok o' /\ shaped o' W None.
    Proof.
      destruct (bound_all _ firsts (fun q k => chance K (fst q) -> forall fuel o, (k <= fuel)%nat -> stands o V (restrict K (fst q)) -> shaped o V None -> exists o', interpret fuel (snd q) o = Ok o' /\ shaped o' W None)) as (k & Hk).
      - intros a j k Hjk H Ch fuel o Hf. apply H; auto. lia.
      - intros (Q, d) Hq. destruct (classic (chance K Q)) as [Ch|Ch]; [|exists 0%nat; intros Ch'; contradiction]. destruct (Sub Q d Hq Ch) as (_ & k & Hk). exists k. auto.
      - exists k. intros fuel Q d o Hf Hq Ch. exact (Hk (Q, d) Hq Ch fuel o Hf).
    Qed.
    Context (s : spe) (St : stands (Some s) V K) (Sh : shaped (Some s) V made).
    Lemma cases_ready : forall Q d, In (Q, d) firsts -> chance K Q -> open_leaves nominal cuts true s /\ steady cuts none s /\ even Q s.
    Proof.
      intros Q d Hq Ch. destruct St as (Ws & Ts & Vs & Dk), Sh as (Td & Hm). apply (ready dlaw nominal derived cuts V made Q s Ws Vs Td Hm). exact (Dv Q d Hq Ch).
    Qed.
    Lemma cases_some : surely s (fun a => exists x, In x l /\ P x a) -> exists Q d, In (Q, d) firsts /\ chance K Q.
    Proof.
      intros Ex. destruct St as (Ws & _ & _ & Dk). apply NNPP. intros No. pose proof (surely_den dlaw s _ Ws Ex w0) as One.
      rewrite (den_ext dlaw s _ (fun a => sumR (map (fun q => ind (fst q) a) firsts))) in One.
      - rewrite (law_sum (den_kernel dlaw s Ws w0) _ _ (fun q => ind (fst q))) in One by (intros; apply bnd_ind). rewrite sumR_zero in One; [lra|].
        intros (Q, d) Hq. cbn [fst]. rewrite Dk by (apply (cases_simple (Q, d) Hq)). destruct (Req_dec (K (ind Q) w0) 0) as [E|E]; auto. exfalso. apply No. exists Q, d. split; auto. now exists w0.
      - intros a. rewrite firsts_total. apply ind_eq. split.
        + intros (x & Hx & Pa). exists (P x, c x). split; auto. apply in_map_iff. eauto.
        + intros (p & Hp & Pa). apply in_map_iff in Hp. destruct Hp as (x & <- & Hx). eauto.
    Qed.
    (** the branches fit, when their events can be made *)
    Lemma cases_fit : forall fuel (marks : string -> R -> Prop) probes (evs : list (option tr)), (1 <= fuel)%nat ->
      (forall x r, nominal x = false -> marks x r -> In (is_below x r) probes /\ In (is_at x r) probes) -> (forall x r, marks x r -> cuts x r) -> (2 ^ List.length probes <= fuel)%nat ->
      Forall2 (fun o q => event_for nominal (vars s) (proper nominal s) (fst q) o) evs firsts -> Forall (asked_for nominal marks probes s) evs ->
      forall Q d, In (Q, d) firsts -> chance K Q -> fits d V (restrict K Q) W.
    Proof.
      intros fuel marks probes evs Hf Mk Cut Hn Fe As Q d Hq Ch. destruct (cases_ready Q d Hq Ch) as (O & Sd & Ev). pose proof St as (Ws & Ts & Vs & Dk). destruct Sh as (Td & Hm).
      destruct (ArithProofs.Forall2_in_r _ _ _ _ _ _ Fe Hq) as (o & Ho & Eo). rewrite Forall_forall in As. pose proof (cases_simple (Q, d) Hq) as Sq. cbn [fst] in *.
      pose proof (proper_sure dlaw nominal no_env s Ws Ts) as SA.
      assert (C : forall w, den s (ind Q) w = Pr dlaw s Q) by (intros w; exact (event_const dlaw nominal s Ws (proper nominal s) SA (Q, d) o w Eo)).
      destruct (case_given fuel (two (base V)) s marks probes (Q, d) o Hf Ws Ts O Sd Td Mk Cut Hn Eo (As o Ho) Ev (chance_pos s V K Q St Sq C Ch)) as (c' & Oc & Tc).
      destruct (Sub Q d Hq Ch) as (Ft & _). apply (Ft (Some c')); [now apply (given_stands dlaw nominal s)|]. split; [exact Tc|apply as_none].
    Qed.
    (** what a branch leaves *)
    Lemma cases_run : forall fuel k (evs : list (option tr)), (forall Q d, In (Q, d) firsts -> chance K Q -> fits d V (restrict K Q) W) ->
      (forall fuel Q d o, (k <= fuel)%nat -> In (Q, d) firsts -> chance K Q -> stands o V (restrict K Q) -> shaped o V None -> exists o', interpret fuel d o = Ok o' /\ shaped o' W None) -> (k <= fuel)%nat ->
      Forall2 (fun o q => event_for nominal (vars s) (proper nominal s) (fst q) o) evs firsts ->
      forall Q d c', In (Q, d) firsts -> conditioned dlaw nominal no_env s Q c' -> tidy (two (base V)) c' ->
      exists t, interpret fuel d (Some c') = Ok (Some t) /\ result_ok dlaw no_simplify nominal no_env W (negb (decb (two (base W)))) t /\ tidy (two (base W)) t.
    Proof.
      intros fuel k evs Ft Run Hk Fe Q d c' Hq Cd Tc. pose proof St as (Ws & Ts & Vs & Dk). pose proof (cases_simple (Q, d) Hq) as Sq. cbn [fst] in Sq. pose proof (proper_sure dlaw nominal no_env s Ws Ts) as SA.
      destruct (ArithProofs.Forall2_in_r _ _ _ _ _ _ Fe Hq) as (o & Ho & Eo).
      assert (C : forall w, den s (ind Q) w = Pr dlaw s Q) by (intros w; exact (event_const dlaw nominal s Ws (proper nominal s) SA (Q, d) o w Eo)).
      pose proof (pos_chance s V K Q St Sq (proj1 (proj2 (proj2 (proj2 Cd))))) as Ch. pose proof (given_stands dlaw nominal s V K Q c' St Sq (conditioned_ok s Q c' C Cd)) as Sc.
      destruct (Run fuel Q d (Some c') Hk Hq Ch Sc) as (o' & Eo' & So'); [split; [exact Tc|apply as_none]|].
      destruct (run_ok io so po fuel dlaw Ed hash ids no_simplify nominal Hid Hh d V (restrict K Q) W (Ft Q d Hq Ch) (Some c') o' Sc Eo') as (Sw & Mon & _).
      destruct (stands_some o' W _ z Sw (Mon z Vz)) as (t & ->). exists t. split; auto. destruct So' as (Tt & _). destruct Sw as (Wt & Tyt & Vt & _). split; auto. now apply (tidy_joinable dlaw nominal derived cuts).
    Qed.
  End Cases.

  Lemma test_simple : forall (bs : list (option tr * command)) es (V : string -> Prop) (s : spe), (forall x, vars s x <-> V x) -> conditions_ok es (map fst bs) -> (forall e, In e es -> plain_event nominal derived cuts V e /\ Forall nonvoid (lits e)) ->
    forall b, In b bs -> simple (ind (test (fst b))).
  Proof.
    intros bs es V s Vs Ch Gd b Hb. destruct (fst b) as [e|] eqn:Eb; [|apply simple_ind_const].
    assert (He : In e es).
    { assert (Hi : In (Some e) (map fst bs)) by (rewrite <- Eb; now apply in_map). destruct Ch as (_ & [K|K]); rewrite K in Hi; [|apply in_app_iff in Hi; destruct Hi as [Hi|[Hi|[]]]; [|discriminate]]; apply in_map_iff in Hi; destruct Hi as (e' & E' & He'); injection E' as <-; exact He'. }
    destruct (Gd e He) as (Pe & _). destruct (plain_ask s V e Vs Pe) as (G & Un & _). now apply event_simple.
  Qed.
  Lemma match_simple : forall x (vs : list (sval (N:=N))) p, In p (numbered vs) -> simple (ind (matches x (snd p))).
  Proof. intros x vs p _. destruct (snd p) as [v|u|u]; [apply fm_simple|apply (simple_ind_var x (fun z => z = FStr u))|apply (simple_ind_var x (fun z => z = FNum (toR u)))]. Qed.

  Lemma if_claim : forall es bs (V : string -> Prop) K m W, (exists z, V z) -> conditions_ok es (map fst bs) -> (forall e, In e es -> plain_event nominal derived cuts V e /\ Forall nonvoid (lits e)) ->
    sure K (fun a => exists b, In b bs /\ test (fst b) a) ->
    (forall P c, In (P, c) (firsts (map (fun b => (test (fst b), snd b)) bs)) -> chance K P -> divisible V m P) ->
    (forall P c, In (P, c) (firsts (map (fun b => (test (fst b), snd b)) bs)) -> chance K P -> claim c V (restrict K P) None W None) ->
    claim (IfElse bs) V K m W None.
  Proof.
    intros es bs V K m W (z & Vz) Ch Gd Ex Dv IH.
    set (P := fun b : option tr * command => test (fst b)) in *.
      destruct (cases_bound bs P snd V W K IH) as (k & Hk).
      assert (Fd : Forall (direct nominal cuts none) es) by (apply Forall_forall; intros e He; now apply Gd).
      assert (Fit : forall o, stands o V K -> shaped o V m -> fits (IfElse bs) V K W /\ forall fuel, (Nat.max 1 (Nat.max k (2 ^ List.length (asks es))) <= fuel)%nat -> exists o', interpret fuel (IfElse bs) o = Ok o' /\ shaped o' W None).
      { intros o St Sh. destruct (stands_some o V K z St Vz) as (s & ->). pose proof St as (Ws & Ts & Vs & Dk). pose proof (test_simple bs es V s Vs Ch Gd) as Sb.
        assert (Ex' : surely s (fun a => exists b, In b bs /\ test (fst b) a)) by (apply (sure_surely dlaw nominal s V K); auto; now apply simple_ind_ex).
        destruct (cases_some bs P snd V K Sb s St Ex') as (Q1 & d1 & Hq1 & Ch1). destruct (cases_ready bs P snd V K m Dv s St Sh Q1 d1 Hq1 Ch1) as (O & Sd & _).
        assert (Gd' : forall e, In e es -> direct nominal cuts none e /\ (forall x, In x (symbols e) -> own s x) /\ Forall nonvoid (lits e)).
        { intros e He. destruct (Gd e He) as ((De & Sy) & Nv). split; auto. split; auto. intros x Hx. destruct (Sy x Hx) as (Vx & Dx). apply (tidy_own dlaw nominal derived cuts (two (base V))); auto; [apply Sh|now apply Vs]. }
        assert (Ft : forall Q d, In (Q, d) (firsts (map (fun x => (P x, snd x)) bs)) -> chance K Q -> fits d V (restrict K Q) W).
        { set (fuel := Nat.max 1 (2 ^ List.length (asks es))). destruct (if_asked io po fuel dlaw nominal cuts es bs s Ws Ch Gd') as (evs & _ & Fe & As).
          apply (cases_fit bs P snd V W K m Sb Dv IH s St Sh fuel (named es) (asks es) evs); auto; try (unfold fuel; lia); [intros y r _ H; now apply asks_marked|now apply (named_cut nominal)]. }
        split.
        - apply fits_if; auto. intros e He.
          assert (Ie : In e es) by (destruct Ch as (_ & [K'|K']); rewrite K' in He; [|apply in_app_iff in He; destruct He as [He|[He|[]]]; [|discriminate]]; apply in_map_iff in He; destruct He as (e' & E' & He'); injection E' as <-; exact He').
          destruct (Gd e Ie) as (Pe & Nv). pose proof (plain_ask s V e Vs Pe) as Ae. split; [split; auto|]. split; [apply (kernel_null s V K); auto; intros a; now apply (plain_regular V)|].
          apply (kernel_sure s V K); auto; [apply defined_simple; apply Ae|]. pose proof (proper_sure dlaw nominal no_env s Ws Ts) as SA. destruct (Gd' e Ie) as (De & Sy & _).
          intros w. apply (law_null_sub (den_kernel dlaw s Ws w) (fun a => ~ proper nominal s a)); auto. intros a H K'. apply H. apply (direct_defined nominal cuts s); auto. intros x Hx. now apply (own_vars dlaw), Sy.
        - intros fuel Hf. destruct (if_asked io po fuel dlaw nominal cuts es bs s Ws Ch Gd') as (evs & _ & Fe & _).
          destruct (if_returns io so po fuel dlaw Ed hash ids no_simplify nominal Hid ltac:(lia) cuts no_env no_env W (negb (decb (two (base W)))) (tidy (two (base V))) (tidy (two (base W))) es bs s) as (t & Et & Tt); auto; [lia| | | | | |].
          + intros Q d Hq Pq. apply (cases_ready bs P snd V K m Dv s St Sh Q d Hq). apply (pos_chance s V K); auto. apply (cases_simple bs P snd Sb (Q, d) Hq).
          + intros evs' rows _ Er. destruct Sh as (Td & _). eapply branches_tidy; eauto.
          + intros cs ws t. apply mk_Sum_tidy.
          + intros d t. apply simplify_tidy.
          + apply (cases_run bs P snd V W K Sb z Vz s St fuel k evs); auto. lia.
          + exists (Some t). split; auto. split; [exact Tt|apply as_none]. }
      split; [intros o St Sh; now apply (Fit o)|]. exists (Nat.max 1 (Nat.max k (2 ^ List.length (asks es)))). intros fuel o Hf St Sh. now apply (Fit o).
  Qed.
  Lemma switch_claim : forall x vs f (V : string -> Prop) K m W, base V x -> Forall (plain_case nominal cuts x) vs -> ForallOrdPairs (separate nominal x) vs ->
    sure K (fun a => exists v, In v vs /\ matches x v a) ->
    (forall P c, In (P, c) (firsts (map (fun p => (matches x (snd p), f (fst p) (snd p))) (numbered vs))) -> chance K P -> divisible V m P) ->
    (forall P c, In (P, c) (firsts (map (fun p => (matches x (snd p), f (fst p) (snd p))) (numbered vs))) -> chance K P -> claim c V (restrict K P) None W None) ->
    claim (Switch x vs f) V K m W None.
  Proof.
    intros x vs f V K m W (Vx & Dx) Fv Sp Ex Dv IH.
    set (P := fun p : nat * sval (N:=N) => matches x (snd p)) in *. set (g := fun p : nat * sval (N:=N) => f (fst p) (snd p)) in *.
      destruct (cases_bound (numbered vs) P g V W K IH) as (k & Hk). destruct (switch_events_total io nominal cuts x vs Fv Sp) as (es & Ee & Fe).
      assert (Fd : Forall (direct nominal cuts none) es) by (eapply Forall_impl; [|exact Fe]; intros ? (_ & K'); exact K').
      assert (Cs : Forall (case_ok nominal x) vs) by (eapply Forall_impl; [|exact Fv]; intros v (Cv & _); exact Cv).
      assert (Sb : forall p, In p (numbered vs) -> simple (ind (P p))) by (intros p; apply match_simple).
      assert (Fit : forall o, stands o V K -> shaped o V m -> fits (Switch x vs f) V K W /\ forall fuel, (Nat.max 1 (Nat.max k (2 ^ List.length (asks es))) <= fuel)%nat -> exists o', interpret fuel (Switch x vs f) o = Ok o' /\ shaped o' W None).
      { intros o St Sh. destruct (stands_some o V K x St Vx) as (s & ->). pose proof St as (Ws & Ts & Vs & Dk).
        assert (Sx : simple (ind (fun a => exists v, In v vs /\ matches x v a))).
        { apply simple_ind_ex. intros v Hv. destruct (numbered_in _ v vs Hv) as (n & Hn). apply (Sb (n, v) Hn). }
        assert (Ex' : surely s (fun a => exists v, In v vs /\ matches x v a)) by (now apply (sure_surely dlaw nominal s V K)).
        assert (Ex2 : surely s (fun a => exists p, In p (numbered vs) /\ P p a)).
        { intros w. apply (law_null_sub (den_kernel dlaw s Ws w) (fun a => ~ exists v, In v vs /\ matches x v a)); auto. intros a Na (v & Hv & M). apply Na. destruct (numbered_in _ v vs Hv) as (n & Hn). exists (n, v). auto. }
        destruct (cases_some (numbered vs) P g V K Sb s St Ex2) as (Q1 & d1 & Hq1 & Ch1). destruct (cases_ready (numbered vs) P g V K m Dv s St Sh Q1 d1 Hq1 Ch1) as (O & Sd & _).
        assert (Vx' : vars s x) by (now apply Vs).
        assert (Ox : own s x) by (apply (tidy_own dlaw nominal derived cuts (two (base V))); auto; apply Sh).
        assert (Fv' : Forall2 (fun o q => event_for nominal (vars s) (proper nominal s) (fst q) o) (map Some es) (firsts (map (fun p => (P p, g p)) (numbered vs)))).
        { apply (switch_events_ok io nominal (vars s) (proper nominal s) x vs g (map Some es)); auto. apply seq_length. }
        assert (Ft : forall Q d, In (Q, d) (firsts (map (fun p => (P p, g p)) (numbered vs))) -> chance K Q -> fits d V (restrict K Q) W).
        { apply (cases_fit (numbered vs) P g V W K m Sb Dv IH s St Sh (Nat.max 1 (2 ^ List.length (asks es))) (named es) (asks es) (map Some es)); auto; try lia; [intros y r _ H; now apply asks_marked|now apply (named_cut nominal)|].
          apply Forall_map, Forall_forall. intros e He. split; [now apply (asks_kept nominal cuts)|]. split; [intros _; left; rewrite Forall_forall in Fe; now apply Fe|].
          assert (Fo : Forall2 (fun o q => event_for nominal (own s) (proper nominal s) (fst q) o) (map Some es) (firsts (map (fun p => (P p, g p)) (numbered vs)))) by (apply (switch_events_ok io nominal (own s) (proper nominal s) x vs g (map Some es)); auto; apply seq_length).
          destruct (Forall2_in_l _ _ _ _ _ _ Fo (in_map Some _ _ He)) as (q & _ & Eq). apply Eq. }
        split; [now apply fits_switch|].
        intros fuel Hf. destruct (switch_returns io so po fuel dlaw Ed hash ids no_simplify nominal Hid ltac:(lia) cuts no_env no_env W (negb (decb (two (base W)))) (tidy (two (base V))) (tidy (two (base W))) x vs f es s) as (t & Et & Tt); auto; [lia| | | | | |].
        - intros Q d Hq Pq. apply (cases_ready (numbered vs) P g V K m Dv s St Sh Q d Hq). apply (pos_chance s V K); auto. apply (cases_simple (numbered vs) P g Sb (Q, d) Hq).
        - intros rows Er. destruct Sh as (Td & _). eapply branches_tidy; eauto.
        - intros cs ws t. apply mk_Sum_tidy.
        - intros d t. apply simplify_tidy.
        - apply (cases_run (numbered vs) P g V W K Sb x Vx s St fuel k (map Some es)); auto. lia.
        - exists (Some t). split; auto. split; [exact Tt|apply as_none]. }
      split; [intros o St Sh; now apply (Fit o)|]. exists (Nat.max 1 (Nat.max k (2 ^ List.length (asks es)))). intros fuel o Hf St Sh. now apply (Fit o).
  Qed.
  Lemma for_claim : forall n0 n1 f V K m W m', claim (Sequence (map f (range n0 n1))) V K m W m' -> claim (For n0 n1 f) V K m W m'.
  Proof.
    intros n0 n1 f V K m W m' IH.
    destruct IH as (F & k & Hk). split; [intros o St Sh; apply fits_for; eauto|]. exists k. intros fuel o Hf St Sh. destruct (Hk fuel o Hf St Sh) as (o' & Eo & So'). exists o'. split; auto. cbn [Prog.interpret] in *. now rewrite runs_map in Eo.
  Qed.
  Lemma cons_claim : forall c cs V K m V' m' W m'', claim c V K m V' m' -> claim (Sequence cs) V' (meaning c K) m' W m'' -> claim (Sequence (c :: cs)) V K m W m''.
  Proof.
    intros c cs V K m V' m' W m'' IH1 IH2.
    destruct IH1 as (F1 & k1 & H1), IH2 as (F2 & k2 & H2).
      assert (Mid : forall fuel o, (k1 <= fuel)%nat -> stands o V K -> shaped o V m -> exists o1, interpret fuel c o = Ok o1 /\ shaped o1 V' m' /\ stands o1 V' (meaning c K)).
      { intros fuel o Hf St Sh. destruct (H1 fuel o Hf St Sh) as (o1 & E1 & S1). exists o1. split; auto. split; auto. destruct (run_ok io so po fuel dlaw Ed hash ids no_simplify nominal Hid Hh c V K V' (F1 o St Sh) o o1 St E1) as (Sw & _). exact Sw. }
      split.
      + intros o St Sh. destruct (Mid k1 o (le_n _) St Sh) as (o1 & _ & S1 & St1). eapply fits_cons; eauto.
      + exists (Nat.max k1 k2). intros fuel o Hf St Sh. destruct (Mid fuel o ltac:(lia) St Sh) as (o1 & E1 & S1 & St1). destruct (H2 fuel o1 ltac:(lia) St1 S1) as (o2 & E2 & S2). exists o2. split; auto.
        cbn [Prog.interpret runs] in *. rewrite E1. cbn [bind]. exact E2.
  Qed.

  Theorem compile_ok : forall c V K m W m', compiles c V K m W m' -> claim c V K m W m'.
  Proof.
    induction 1 as [V K m|x d l V W K m Em Ed' Pl Wx|x d l V W K m (z & Vz) Nx Ed' Pl Wx|y t x V W K m Dy Ny Fy Vx Nx Gt Rt Ot Sy Df Rg Wy|e V K m (z & Vz) Pe Lv Dv Ch|es bs V K m W (z & Vz) Ch Gd Ex Dv Sub IH|x vs f V K m W (Vx & Dx) Fv Sp Ex Dv Sub IH|n0 n1 f V K m W m' C IH|V K m|c cs V K m V' m' W m'' C1 IH1 C2 IH2].
    - split; [constructor|]. exists 0%nat. intros fuel o _ St Sh. exists o. split; auto.
    - destruct Pl as (Sl & Dx & Il & Ol & Sdl). split; [intros o _ _; apply (fits_sample dlaw nominal x d l); auto; intros z; rewrite Wx; split; auto; intros [K'|K']; auto; destruct (Em z K')|].
      exists 0%nat. intros fuel o _ St _. destruct o as [s|].
      + exfalso. destruct St as (Ws & _ & Vs & _). destruct (vars_some dlaw s Ws) as (z & Hz). apply Vs in Hz. exact (Em z Hz).
      + exists (Some l). cbn [Prog.interpret]. rewrite Ed'. split; auto. split; [|intros l' P E; injection E as ->; auto]. destruct Sl as (Wl & Tl & Vl). apply (leafy_tidy dlaw nominal derived cuts _ x); auto. intros z. apply Vl.
    - destruct Pl as (Sl & Dx & Il & Ol & Sdl). split; [intros o _ _; apply (fits_sample dlaw nominal x d l); auto|].
      exists 0%nat. intros fuel o _ St Sh. destruct (stands_some o V K z St Vz) as (s & ->). destruct St as (Ws & Ts & Vs & _), Sh as (Td & _), Sl as (Wl & Tl & Vl).
      destruct (sample_returns io so po fuel dlaw hash ids no_simplify nominal no_env V x d l s Ws Ts Vs Ed' Wl Tl Vl Nx) as (t & Et & _). exists (Some t). split; auto.
      cbn [Prog.interpret] in Et. rewrite Ed' in Et. cbn [bind] in Et. inv_bind Et. injection Et as ->.
      destruct (tidy_some dlaw nominal derived cuts _ s Ws Td) as (u & Vu & Du). apply Vs in Vu.
      assert (Tw : two (base W)) by (exists u, x; split; [split; [apply Wx; auto|exact Du]|]; split; [split; [apply Wx; auto|exact Dx]|intros ->; contradiction]).
      split; [|apply as_none]. apply (mk_Product_tidy nominal derived cuts (two (base W)) [s; l] t Tw); auto. constructor; [now apply (tidy_mono nominal derived cuts (two (base V)))|]. constructor; [|constructor]. apply (leafy_tidy dlaw nominal derived cuts _ x); auto. intros y. apply Vl.
    - split; [intros o _ _; apply fits_transform; eauto|].
      exists 0%nat. intros fuel o _ St Sh. destruct (stands_some o V K x St Vx) as (s & ->). pose proof St as (Ws & Ts & Vs & Dk). destruct Sh as (Td & Hm).
      assert (Nt : surely s (nice t)).
      { apply (surely_and dlaw s (fun a => teval t a <> None) (regular true t)); auto; apply (sure_surely dlaw nominal s V K); auto; apply (lit_simple t _ x Ot); intros w w' E'.
        - now rewrite (teval_agree t w w').
        - split; apply regular_agree; auto. intros z Hz. symmetry. auto. }
      assert (Vx' : vars s x) by now apply Vs.
      destruct (transform_total dlaw s y t Ws (typed_heavy nominal no_env s Ts) Gt Rt Nt Sy) as (s' & Es).
      + intros Vy. apply Fy. now apply Vs.
      + now apply (hosts_one dlaw nominal no_env s x).
      + exists (Some s'). cbn [Prog.interpret on]. rewrite Es. split; auto. split.
        * apply (tidy_mono nominal derived cuts (two (base V))); [|now apply (transform_tidy nominal derived cuts y t Ny Dy _ s)]. apply two_mono. intros z (Vz & Dz). split; auto. apply Wy. auto.
        * intros l P El Ol El'. destruct (Hm l P El Ol El') as (Os & Es'). split; [now apply (transform_open nominal cuts y t Ny true s)|now apply (transform_even y t P s)].
    - assert (Fit : forall o, stands o V K -> shaped o V m -> fits (Condition e) V K V).
      { intros o St Sh. destruct (stands_some o V K z St Vz) as (s & ->). pose proof St as (Ws & Ts & Vs & Dk). apply fits_condition; [now apply (plain_ask s)|]. apply (kernel_null s V K); auto. intros a. now apply (plain_regular V). }
      split; auto. exists (Nat.max 1 (2 ^ List.length (asks [e]))). intros fuel o Hf St Sh. destruct (stands_some o V K z St Vz) as (s & ->). pose proof St as (Ws & Ts & Vs & Dk). destruct Sh as (Td & Hm).
      destruct (plain_ask s V e Vs Pe) as (G & Un & So & Sy). pose proof (event_simple e G Un) as Se. pose proof Pe as (De & Sb).
      assert (V' : forall x, In x (symbols e) -> own s x) by (intros x Hx; apply (tidy_own dlaw nominal derived cuts (two (base V))); auto; [apply Vs|]; now apply Sb).
      assert (Vv : forall x, In x (symbols e) -> vars s x) by (intros x Hx; apply Vs; now apply Sy).
      assert (Cst : forall w, den s (ind (holds e)) w = Pr dlaw s (holds e)).
      { intros w. apply den_closed; auto. intros a b E. apply ind_eq. unfold holds. rewrite (teval_agree e a b); [reflexivity|apply G|]. intros x Hx. apply E. auto. }
      assert (Pos : forall w, 0 < den s (ind (holds e)) w) by (intros w; rewrite Cst; now apply (chance_pos s V K)).
      assert (Lf : leaf_form s e).
      { intros Il. destruct Lv as [Tw|Lv]; auto. exfalso. pose proof (wide_products dlaw nominal derived cuts (two (base V)) s Ws Td) as Wp. destruct s; try discriminate Il; (assert (K' : Forall (fun c => is_product c = true) (summands _)) by (apply Wp; apply (two_iff (base V)); [apply base_iff; intros y; symmetry; apply Vs|exact Tw]); inversion K'; discriminate). }
      assert (Fd : Forall (direct nominal cuts none) [e]) by (constructor; [exact De|constructor]).
      pose proof (within_closed (ids s) s (Hid s)) as Uc.
      assert (Rt : exists t, fst (condition io so po fuel (ids s) hash s e Memo) = Ok t).
      { destruct Dv as [Cj|Dv].
        - destruct (tidy_open nominal derived cuts _ s Td) as (O & Sd). exact (conjunction_condition_safe io so po fuel dlaw Ed (ids s) hash nominal no_env ltac:(lia) (within s) Uc (fun _ => True) (fun _ => True) cuts none s e (within_self s) Ws Ts O Sd De Cj V' Lf Pos Memo (fresh_valid dlaw (ids s) nominal no_env (within s))).
        - destruct (ready dlaw nominal derived cuts V m (holds e) s Ws Vs Td Hm Dv) as (O & Sd & Ev).
          exact (kept_condition_safe io so po fuel dlaw Ed (ids s) hash nominal no_env ltac:(lia) (within s) Uc (fun _ => True) (fun _ => True) cuts (named [e]) (asks [e]) (fun x r _ H => asks_marked [e] x r H) (named_cut nominal cuts [e] Fd)
        s e (within_self s) Ws Ts O Sd Ev (asks_kept nominal cuts [e] e Fd (or_introl eq_refl)) V' Lf ltac:(lia) Pos Memo (fresh_valid dlaw (ids s) nominal no_env (within s))). }
      destruct Rt as (t & Et).
      exists (Some t). cbn [Prog.interpret on]. rewrite Et. split; auto. split; [|apply as_none]. apply (condition_tidy io so po fuel (ids s) hash nominal derived cuts (two (base V)) s e Td Memo); auto. constructor.
    - apply (if_claim es); eauto.
    - apply switch_claim; auto. now split.
    - now apply for_claim.
    - split; [constructor|]. exists 0%nat. intros fuel o _ St Sh. exists o. split; auto.
    - eapply cons_claim; eauto.
  Qed.
End Run.
