(** Branching on comparisons: the questions that IfElse and Switch ask have answers, so that they
    give a result when the branches do. *)
From Coq Require Import List Bool String Reals Lra Lia ZArith QArith Qreals PeanoNat FunctionalExtensionality Permutation Classical.
From Verif Require Import Base Num Sets SetSpec SetIv SetProofs SetOr SetOps SetAlg SetBuilt
  Poly Trans TransSpec TransFacts PolyProofs InvProofs InvMain EvProofs ArithProofs
  Dnf DnfSpec DnfProofs DnfUnion PropDnf Logs Spe SpeSpec SpeFacts SpeRect LeafProofs LeafEvents LeafCond SpeCons LeafGiven MemoProofs
  NormSorts LogprobProofs LogprobTop SpeEq SimplifyProofs CondTypes CondProofs CondTop PropSpe SpeOps OpsProofs BuildProofs TransformProofs PropCons Prog ProgSpec ProgEvents ProgProofs PropProg
  TotalSpec TotalEnds TotalSets TotalSolve TotalProofs PropTotal TotalUnion TotalGrid CondLeafTotal SimplifyTotal TightUnion Diffuse CondTotal PropCondTotal BranchTotal ReturnSpec SwitchTotal.
Import ListNotations.
Local Open Scope R_scope.

(** ** The numbers and tests of several events *)
Section Grids.
  Context {N : numsys} (nominal : string -> bool) (cuts : string -> R -> Prop).
  Notation tr := (tr N).
  Notation none := (fun (_ : string) (_ : R) => False).
  Definition named (es : list tr) (x : string) (r : R) : Prop := exists e, In e es /\ ecuts e x r.
  Definition asks (es : list tr) : list (asg -> Prop) := flat_map etests es.
  Lemma asks_marked : forall es x r, named es x r -> In (is_below x r) (asks es) /\ In (is_at x r) (asks es).
  Proof. intros es x r (e & He & H). destruct (grid_tests e x r H) as (A & B). split; apply in_flat_map; eauto. Qed.
  Lemma named_cut : forall es, Forall (direct nominal cuts none) es -> forall x r, named es x r -> cuts x r.
  Proof. intros es F x r (e & He & H). rewrite Forall_forall in F. destruct (grid_named nominal cuts none e x r (F e He) H) as [K|[]]. exact K. Qed.
  Lemma kept_mono : forall (marks marks' : string -> R -> Prop) probes probes' (e : tr), (forall x r, marks x r -> marks' x r) -> (forall p, In p probes -> In p probes') ->
    kept nominal marks probes e -> kept nominal marks' probes' e.
  Proof.
    intros marks marks' probes probes' e M P (G & F). split; auto. eapply Forall_impl; [|exact F]. intros a ((x & Ga & k & v & -> & H) & Fm). split.
    - exists x. split; auto. exists k, v. split; auto. unfold TotalSets.fits in *. destruct (nominal x); auto. destruct H as (A & B & C & E1 & E2). split; auto. split; auto. split; auto. split.
      + intros i Hi r Hr. apply M. exact (E1 i Hi r Hr).
      + intros vs y r Hv Hy Er. destruct (E2 vs y r Hv Hy Er) as [K|[]]. left. now apply M.
    - intros w w' Sw Sw' Al. apply Fm; auto. intros t Ht. apply Al. auto.
  Qed.
  Lemma asks_kept : forall es e, Forall (direct nominal cuts none) es -> In e es -> kept nominal (named es) (asks es) e.
  Proof.
    intros es e F He. rewrite Forall_forall in F. apply (kept_mono (ecuts e) (named es) (etests e)); [| |now apply (direct_kept nominal cuts none), F].
    - intros x r H. exists e. auto.
    - intros p Hp. apply in_flat_map. eauto.
  Qed.
  Lemma kept_names : forall (marks : string -> R -> Prop) probes, (forall x r, marks x r -> cuts x r) -> forall e : tr, kept nominal marks probes e -> direct nominal cuts none e.
  Proof.
    intros marks probes Cut e (G & F). split; auto. eapply Forall_impl; [|exact F]. intros a ((x & _ & k & v & -> & K) & _). exists k, x, v. split; auto. unfold TotalSets.fits in K. destruct (nominal x); auto.
    destruct K as (Nk & Rv & Hi & Ei & Ev). split; auto. split; auto. split; auto. split.
    - intros i Hin r Hr. exact (Cut x r (Ei i Hin r Hr)).
    - intros vs y r Hvs Hy Er. destruct (Ev vs y r Hvs Hy Er) as [H|[]]. left. exact (Cut x r H).
  Qed.
  Lemma direct_sorted : forall e : tr, direct nominal cuts none e -> Forall nonvoid (lits e) -> sorted nominal e.
  Proof.
    intros e De Nv. destruct (direct_cmps nominal cuts none e De) as (G & F). unfold sorted. rewrite Forall_forall in *. intros a Ha. destruct (F a Ha) as (x & Ca).
    pose proof (cmp_sorted nominal cuts x a Ca (Nv a Ha)) as Sa. destruct Ca as (_ & k & v & -> & _). unfold sorted in Sa. cbn [lits] in Sa. now inversion Sa.
  Qed.
End Grids.

Section Returns.
  Context {N : numsys} {S : logsys} {D : distsys N S} (io : iterorder N) (so : strorder) (po : polyoracle N) (fuel : nat).
  Context (dlaw : dist D -> (fval -> R) -> R) (Ed : eq_dist dlaw).
  Context (hash : spe D -> Z) (ids : spe D -> spe D -> nat) (no_simplify : bool) (nominal : string -> bool).
  Notation spe := (spe D).
  Notation tr := (tr N).
  Notation command := (command (N:=N) (D:=D)).
  Notation den := (den dlaw).
  Notation Pr := (Pr dlaw).
  Notation wf_spe := (wf_spe dlaw).
  Notation surely := (surely dlaw).
  Notation none := (fun (_ : string) (_ : R) => False).
  Notation interpret := (interpret io so po fuel hash ids no_simplify).
  Notation about s e := (forall x, In x (symbols e) -> own s x).
  Context (Hid : forall s, distinct (ids s) s) (Hf : (1 <= fuel)%nat).
  (** the values have the sorts of their variables *)
  Definition proper (s : spe) (w : asg) : Prop := ~ bad nominal (vars s) w.
  Lemma proper_sure : forall envof s, wf_spe s -> typed nominal envof s -> surely s (proper s).
  Proof.
    intros envof s W T w. apply (law_null_sub (den_kernel dlaw s W w) (bad nominal (vars s))); [now apply (typed_sorted dlaw nominal envof)|]. intros a Ha. apply NNPP. exact Ha.
  Qed.
  Lemma direct_defined : forall cuts (s : spe) (e : tr) w, direct nominal cuts none e -> Forall nonvoid (lits e) -> (forall x, In x (symbols e) -> vars s x) -> proper s w -> teval e w <> None.
  Proof.
    intros cuts s e w De Nv V Pw. set (w' := fun y => if dec (vars s y) then w y else if nominal y then FStr EmptyString else FNum 0).
    assert (Sw : sorted_asg nominal w').
    { intros y. unfold w'. destruct (dec (vars s y)) as [Vy|_]; [|destruct (nominal y) eqn:En; auto]. destruct (classic (sort1 nominal y (w y))) as [K|K]; [exact K|]. exfalso. apply Pw. exists y. auto. }
    rewrite (teval_agree e w w'); [|apply De|].
    - destruct (sorted_defined nominal e w' (proj1 De) (direct_sorted nominal cuts e De Nv) Sw) as [H|H]; rewrite H; discriminate.
    - intros x Hx. unfold w'. destruct (dec (vars s x)) as [_|K]; [reflexivity|]. destruct (K (V x Hx)).
  Qed.
  Lemma direct_guard : forall cuts points (V : string -> Prop) (e : tr), direct nominal cuts points e -> Forall nonvoid (lits e) -> (forall x, In x (symbols e) -> V x) -> guard nominal V e.
  Proof.
    intros cuts points K e De Nv V. split; auto. pose proof (direct_cmps nominal cuts points e De) as Ce. split; [apply De|]. split.
    - destruct Ce as (_ & Ce). eapply Forall_impl; [|exact Ce]. intros a (x & (_ & k & v & -> & _)). exists x. intros y [<-|[]]. reflexivity.
    - split; auto. now apply (cmps_sorts nominal cuts points).
  Qed.
  (** a leaf has one variable of its own *)
  Lemma leaf_one : forall s : spe, is_leaf s = true -> exists x, forall y, own s y <-> y = x.
  Proof. intros [disc x d supp cond env|x a env|x ws|l|l] Il; try discriminate Il; exists x; intros y; cbn [own]; intuition congruence. Qed.
  Lemma even_event : forall cuts many (s : spe) (P : asg -> Prop) (d : tr), open_leaves nominal cuts many s -> gev d -> about s d -> (forall w, proper s w -> (holds d w <-> P w)) -> even P s -> even (holds d) s.
  Proof.
    intros cuts many s P d O G Ab H E. destruct s as [disc x dd supp cond env|x a env|x ws|l|l]; auto. cbn [even] in *. intros Ec w r Hr Al. destruct O as (En & _).
    set (w' := fun y : string => if nominal y then FStr EmptyString else FNum 0).
    assert (Pp : forall q, proper (RealLeaf disc x dd supp cond env) (upd w' x (FNum q))).
    { intros q (y & _ & K). apply K. unfold upd. destruct (String.eqb_spec x y) as [<-|]; [exact En|]. unfold w', sort1. destruct (nominal y); reflexivity. }
    assert (Ag : forall q, holds d (upd w x (FNum q)) <-> holds d (upd w' x (FNum q))).
    { intros q. unfold holds. rewrite (teval_agree d (upd w x (FNum q)) (upd w' x (FNum q))); [tauto|apply G|]. intros y Hy. rewrite <- (Ab y Hy). unfold upd. now rewrite String.eqb_refl. }
    apply (E Ec w' r); [apply H, Ag; auto|]. destruct Al as (eps & Pe & Al). exists eps. split; auto. intros q Hq Nq K. apply (Al q Hq Nq). now apply Ag, H.
  Qed.

  Notation case := ((asg -> Prop) * command)%type.
  (** an event that a branching asks about *)
  Definition asked_for (marks : string -> R -> Prop) probes (s : spe) (o : option tr) : Prop :=
    match o with Some d => kept nominal marks probes d /\ leaf_form s d /\ about s d | None => True end.
  Lemma case_answers : forall cuts envof (s : spe) (marks : string -> R -> Prop) probes (q : case) o, wf_spe s -> typed nominal envof s -> open_leaves nominal cuts true s -> steady cuts none s ->
    (forall x r, nominal x = false -> marks x r -> In (is_below x r) probes /\ In (is_at x r) probes) -> (forall x r, marks x r -> cuts x r) -> (2 ^ List.length probes <= fuel)%nat ->
    event_at nominal s (proper s) q o -> asked_for marks probes s o -> (0 < Pr s (fst q) -> even (fst q) s) ->
    answers io so po fuel dlaw hash ids nominal envof s q o.
  Proof.
    intros cuts envof s marks probes q [d|] W T O St Mk Cut Hn Eq As Ev; cbn [answers]; [|exact Logic.I]. destruct As as (Kd & Lf & Ab). destruct Eq as ((G & Un & So & Sy) & Rg & Iff).
    pose proof (within_closed (ids s) s (Hid s)) as Uc. pose proof (kept_names nominal cuts marks probes Cut d Kd) as De. split.
    - apply (logprob_safe io po fuel dlaw (ids s) hash nominal cuts none Hf (within s) Uc _ _ _ s d true); auto; [apply within_self|discriminate].
    - intros Pq. specialize (Ev Pq). apply (kept_condition_safe io so po fuel dlaw Ed (ids s) hash nominal envof Hf (within s) Uc (fun _ => True) (fun _ => True) cuts marks probes Mk Cut s d); auto; [apply within_self|now apply (even_event cuts true s (fst q))|].
      intros w. pose proof (proper_sure envof s W T) as SA. pose proof (event_const dlaw nominal s W (proper s) SA q (Some d) w (conj (conj G (conj Un (conj So Sy))) (conj Rg Iff))) as C1.
      pose proof (event_pr dlaw nominal s W (proper s) SA q (Some d) w (conj (conj G (conj Un (conj So Sy))) (conj Rg Iff))) as C2. cbn in C2. rewrite <- C2, C1. exact Pq.
  Qed.

  (** the block of branches, when its events can be asked about *)
  Lemma cases_return : forall X (l : list X) (P : X -> asg -> Prop) (c : X -> command) cuts envof envof' V' leaves (J J' : spe -> Prop) (marks : string -> R -> Prop) probes s evs,
    wf_spe s -> typed nominal envof s -> open_leaves nominal cuts true s -> steady cuts none s ->
    (forall x r, nominal x = false -> marks x r -> In (is_below x r) probes /\ In (is_at x r) probes) -> (forall x r, marks x r -> cuts x r) -> (2 ^ List.length probes <= fuel)%nat ->
    Forall2 (fun o q => event_for nominal (vars s) (proper s) (fst q) o) evs (firsts (map (fun x => (P x, c x)) l)) -> Forall (asked_for marks probes s) evs ->
    surely s (fun a => exists x, In x l /\ P x a) ->
    (forall Q d, In (Q, d) (firsts (map (fun x => (P x, c x)) l)) -> 0 < Pr s Q -> even Q s) ->
    (forall rows, if_branches io so po fuel hash ids s evs (map (fun x s => interpret (c x) (Some s)) l) = Ok rows -> Forall (fun r => J (fst (fst r))) rows) ->
    (forall cs ws t, Forall J' cs -> mk_Sum cs ws = Ok t -> J' t) -> (forall d t, J' d -> simplify hash d = Ok t -> J' t) ->
    (forall Q d c', In (Q, d) (firsts (map (fun x => (P x, c x)) l)) -> conditioned dlaw nominal envof s Q c' -> J c' ->
      exists t, interpret d (Some c') = Ok (Some t) /\ result_ok dlaw no_simplify nominal envof' V' leaves t /\ J' t) ->
    exists t, if_block io so po fuel hash ids no_simplify (Some s) evs (map (fun x s => interpret (c x) (Some s)) l) = Ok (Some t) /\ J' t.
  Proof.
    intros X l P c cuts envof envof' V' leaves J J' marks probes s evs W T O St Mk Cut Hn Ev As Ex Even HJ Jm Js Sub. set (Ps := firsts (map (fun x => (P x, c x)) l)) in *. pose proof (proper_sure envof s W T) as SA.
    assert (F : Forall2 (event_at nominal s (proper s)) Ps evs) by (clear -Ev; induction Ev; constructor; auto).
    assert (Len : List.length (map (fun x s => interpret (c x) (Some s)) l) = List.length evs).
    { rewrite map_length. transitivity (List.length Ps); [|clear -F; induction F; simpl; auto]. unfold Ps. rewrite <- (map_length snd (firsts _)), firsts_snd, !map_length. reflexivity. }
    assert (Tot : sumR (map (fun q => Pr s (fst q)) Ps) = 1).
    { unfold SpeSpec.Pr. rewrite <- (law_sum (den_kernel dlaw s W w0) _ Ps (fun q => ind (fst q))) by (intros; apply bnd_ind).
      rewrite (den_ext dlaw s _ (ind (fun a => exists x, In x l /\ P x a))); [now apply surely_den|].
      intros a. unfold Ps. rewrite firsts_total. apply ind_eq. split.
      + intros (p & Hp & Pa). apply in_map_iff in Hp. destruct Hp as (x & <- & Hx). eauto.
      + intros (x & Hx & Pa). exists (P x, c x). split; auto. apply in_map_iff. eauto. }
    apply (block_returns io so po fuel dlaw Ed hash ids no_simplify nominal envof envof' s W T (proper s) SA Hid Ps evs _ V' leaves J J' HJ Jm Js F); auto.
    - assert (G : forall Rs, (forall q, In q Ps -> In q Rs) -> Forall2 (fun q o => event_at nominal s (proper s) q o /\ In q Rs /\ asked_for marks probes s o) Ps evs).
      { clear -F As. induction F as [|q o Qs evs E F IH]; intros Rs K; constructor; inversion As; subst; auto.
        - split; auto. split; auto. apply K. now left.
        - apply IH; auto. intros; apply K; now right. }
      specialize (G Ps (fun q Hq => Hq)).
      eapply Forall2_imp; [|exact G]. intros q o _ _ (Eq & Hq & Aq). apply (case_answers cuts envof s marks probes); auto. destruct q as (Q, d). exact (Even Q d Hq).
    - intros q sub c' Hq Pq (C1 & C2 & C3 & C4 & C5) Jc. pose proof (subs_at io so po fuel hash ids no_simplify X X l (fun x => x) P c Ps eq_refl q sub Hq) as ->. destruct q as (Q, d). cbn [fst snd] in *.
      apply (Sub Q d c'); auto; [now apply in_combine_l in Hq|]. exact (conj C1 (conj C3 (conj C2 (conj Pq C5)))).
  Qed.

  Lemma own_event : forall (s : spe) A P (o : option tr), wf_spe s -> event_for nominal (own s) A P o -> event_for nominal (vars s) A P o.
  Proof. intros s A P [d|] W H; cbn in *; auto. destruct H as ((G & Un & So & Sy) & H). split; auto. split; auto. split; auto. split; auto. intros x Hx. apply (own_vars dlaw); auto. Qed.

  (** ** IfElse *)
  Lemma if_asked : forall cuts es (bs : list (option tr * command)) s,
    wf_spe s ->
    chain es (map fst bs) -> (forall e, In e es -> direct nominal cuts none e /\ about s e /\ Forall nonvoid (lits e)) ->
    exists evs, if_events io po fuel (map fst bs) = Ok evs /\
      Forall2 (fun o q => event_for nominal (vars s) (proper s) (fst q) o) evs (firsts (cases_of bs)) /\ Forall (asked_for (named es) (asks es) s) evs.
  Proof.
    intros cuts es bs s W Ch Gd.
    assert (Fd : Forall (direct nominal cuts none) es) by (apply Forall_forall; intros e He; now apply Gd).
    assert (Fk : Forall (okg nominal (named es) (asks es) (own s)) es).
    { apply Forall_forall. intros e He. destruct (Gd e He) as (De & V & Nv). split; auto. split; [now apply (asks_kept nominal cuts)|]. apply inV_lits. exact V. }
    destruct (if_events_total io po fuel nominal (named es) (asks es) (fun x r _ H => asks_marked es x r H) (own s) es (map fst bs) Ch Fk) as (evs & Ee & Ne).
    assert (Ins : forall e, In (Some e) (map fst bs) -> In e es).
    { intros e He. destruct Ch as (_ & [K|K]); rewrite K in He; [|apply in_app_iff in He; destruct He as [He|[He|[]]]; [|discriminate]]; apply in_map_iff in He; destruct He as (e' & E' & He'); injection E' as <-; exact He'. }
    assert (Eo : Forall2 (fun o q => event_for nominal (own s) (proper s) (fst q) o) evs (firsts (cases_of bs))).
    { apply (if_events_ok io po fuel nominal (own s) (proper s) bs evs); auto. intros e He. destruct (Gd e (Ins e He)) as (De & V & Nv). split; [now apply (direct_guard cuts none)|].
      intros w Pw. split; [|apply (direct_defined cuts s); auto; intros x Hx; apply (own_vars dlaw); auto]. apply on_vars_regular; [apply De|]. apply (cmps_on_vars nominal cuts none). now apply direct_cmps. }
    exists evs. split; auto. split.
    - eapply Forall2_imp; [|exact Eo]. intros o q _ _. now apply own_event.
    - apply Forall_forall. intros o Ho. destruct (Forall2_in_l _ _ _ _ _ _ Eo Ho) as (q & _ & Eq). rewrite Forall_forall in Ne. specialize (Ne o Ho). destruct o as [d|]; cbn in *; auto. destruct Ne as (Kd & e & (Ke & Ie) & En). split; auto. split; [|apply Eq].
      intros Il. destruct (leaf_one s Il) as (x & Vx).
      apply (normalize_level io po fuel nominal (named es) (asks es) (own s) e d x); auto. intros y Hy. apply Vx. apply inV_lits in Ie. now apply Ie.
  Qed.
  Lemma if_returns : forall cuts envof envof' V' leaves (J J' : spe -> Prop) es (bs : list (option tr * command)) s,
    wf_spe s -> typed nominal envof s -> open_leaves nominal cuts true s -> steady cuts none s ->
    chain es (map fst bs) -> (forall e, In e es -> direct nominal cuts none e /\ about s e /\ Forall nonvoid (lits e)) -> (2 ^ List.length (asks es) <= fuel)%nat ->
    surely s (fun a => exists b, In b bs /\ test (fst b) a) ->
    (forall P c, In (P, c) (firsts (cases_of bs)) -> 0 < Pr s P -> even P s) ->
    (forall evs rows, if_events io po fuel (map fst bs) = Ok evs -> if_branches io so po fuel hash ids s evs (map (fun b s => interpret (snd b) (Some s)) bs) = Ok rows -> Forall (fun r => J (fst (fst r))) rows) ->
    (forall cs ws t, Forall J' cs -> mk_Sum cs ws = Ok t -> J' t) -> (forall d t, J' d -> simplify hash d = Ok t -> J' t) ->
    (forall P c c', In (P, c) (firsts (cases_of bs)) -> conditioned dlaw nominal envof s P c' -> J c' ->
      exists t, interpret c (Some c') = Ok (Some t) /\ result_ok dlaw no_simplify nominal envof' V' leaves t /\ J' t) ->
    exists t, interpret (IfElse bs) (Some s) = Ok (Some t) /\ J' t.
  Proof.
    intros cuts envof envof' V' leaves J J' es bs s W T O St Ch Gd Hn Ex Even HJ Jm Js Sub. cbn [Prog.interpret on].
    destruct (if_asked cuts es bs s W Ch Gd) as (evs & Ee & Ev & As). rewrite Ee. cbn [bind].
    apply (cases_return _ bs (fun b => test (fst b)) snd cuts envof envof' V' leaves J J' (named es) (asks es) s evs); auto.
    - intros x r _ H. now apply asks_marked.
    - apply (named_cut nominal). apply Forall_forall. intros e He. now apply Gd.
    - intros rows Er. exact (HJ evs rows Ee Er).
  Qed.

  (** ** Sample *)
  Lemma sample_returns : forall envof (V : string -> Prop) x (d : distribution (D:=D)) l s, wf_spe s -> typed nominal envof s -> (forall z, vars s z <-> V z) ->
    d x = Ok l -> wf_spe l -> typed nominal envof l -> (forall z, vars l z <-> z = x) -> ~ V x ->
    exists t, interpret (Sample x d) (Some s) = Ok (Some t) /\ is_product t = true /\ joinable dlaw no_simplify nominal envof (fun z => V z \/ z = x) false t.
  Proof.
    intros envof V x d l s W T Vs Ed' Wl Tl Vl Nx. cbn [Prog.interpret]. rewrite Ed'. cbn [bind].
    assert (Fw : Forall wf_spe [s; l]) by (constructor; [exact W|constructor; [exact Wl|constructor]]).
    destruct (mk_Product_total dlaw [s; l]) as (t & Et); [discriminate|exact Fw| |].
    { constructor; [|constructor; [constructor|constructor]]. constructor; [|constructor]. intros z Hs Hl. apply Vl in Hl. subst z. apply Nx. now apply Vs. }
    unfold spe_and. rewrite Et. cbn [bind]. exists t. split; auto. destruct (mk_Product_ok dlaw [s; l] t Fw Et) as (Wt & (m & ->) & Vt & _). split; [reflexivity|]. split; auto. split.
    - apply (mk_Product_every (part_ok nominal envof) (part_prod nominal envof) [s; l]); auto.
    - split; [|right; constructor; auto]. intros z. rewrite Vt. split.
      + intros (c & [<-|[<-|[]]] & Hc); [left; now apply Vs|right; now apply Vl].
      + intros [Hz| ->]; [exists s; split; [simpl; auto|now apply Vs]|exists l; split; [simpl; auto|now apply Vl]].
  Qed.

  (** ** Switch *)
  Lemma numbered_in : forall A (v : A) vs, In v vs -> exists n, In (n, v) (numbered vs).
  Proof.
    intros A v vs. unfold numbered. generalize 0%nat. induction vs as [|u vs IH]; intros k []; cbn [List.length seq combine].
    - subst u. exists k. now left.
    - destruct (IH (Datatypes.S k) H) as (n & Hn). exists n. now right.
  Qed.
  Lemma switch_returns : forall cuts envof envof' V' leaves (J J' : spe -> Prop) x vs (f : nat -> sval (N:=N) -> command) es s,
    wf_spe s -> typed nominal envof s -> open_leaves nominal cuts true s -> steady cuts none s ->
    own s x -> Forall (case_ok nominal x) vs -> switch_events io x vs = Ok (map Some es) -> Forall (fun e => is_basic e = true /\ direct nominal cuts none e) es ->
    (2 ^ List.length (asks es) <= fuel)%nat ->
    surely s (fun a => exists v, In v vs /\ matches x v a) ->
    (forall P c, In (P, c) (firsts (map (fun p => (matches x (snd p), f (fst p) (snd p))) (numbered vs))) -> 0 < Pr s P -> even P s) ->
    (forall rows, if_branches io so po fuel hash ids s (map Some es) (map (fun p s => interpret (f (fst p) (snd p)) (Some s)) (numbered vs)) = Ok rows -> Forall (fun r => J (fst (fst r))) rows) ->
    (forall cs ws t, Forall J' cs -> mk_Sum cs ws = Ok t -> J' t) -> (forall d t, J' d -> simplify hash d = Ok t -> J' t) ->
    (forall P c c', In (P, c) (firsts (map (fun p => (matches x (snd p), f (fst p) (snd p))) (numbered vs))) -> conditioned dlaw nominal envof s P c' -> J c' ->
      exists t, interpret c (Some c') = Ok (Some t) /\ result_ok dlaw no_simplify nominal envof' V' leaves t /\ J' t) ->
    exists t, interpret (Switch x vs f) (Some s) = Ok (Some t) /\ J' t.
  Proof.
    intros cuts envof envof' V' leaves J J' x vs f es s W T O St Vx Cs Ee Fe Hn Ex Even HJ Jm Js Sub. cbn [Prog.interpret]. rewrite Ee. cbn [bind].
    assert (Fd : Forall (direct nominal cuts none) es) by (eapply Forall_impl; [|exact Fe]; intros ? (_ & K); exact K).
    assert (Eo : Forall2 (fun o q => event_for nominal (own s) (proper s) (fst q) o) (map Some es) (firsts (map (fun p => (matches x (snd p), f (fst p) (snd p))) (numbered vs)))).
    { apply (switch_events_ok io nominal (own s) (proper s) x vs (fun p => f (fst p) (snd p)) (map Some es)); auto. apply seq_length. }
    apply (cases_return _ (numbered vs) (fun p => matches x (snd p)) (fun p => f (fst p) (snd p)) cuts envof envof' V' leaves J J' (named es) (asks es) s (map Some es)); auto.
    - intros y r _ H. now apply asks_marked.
    - now apply (named_cut nominal).
    - eapply Forall2_imp; [|exact Eo]. intros o q _ _. now apply own_event.
    - apply Forall_map, Forall_forall. intros e He. split; [now apply (asks_kept nominal cuts)|]. split; [intros _; left; rewrite Forall_forall in Fe; now apply Fe|].
      destruct (Forall2_in_l _ _ _ _ _ _ Eo (in_map Some _ _ He)) as (q & _ & Eq). apply Eq.
    - intros w. specialize (Ex w). rewrite <- Ex. apply (den_ext dlaw s). intros a. apply ind_eq. apply not_iff_compat. split.
      + intros (p & Hp & M). exists (snd p). split; auto. destruct p as (n, v). now apply in_combine_r in Hp.
      + intros (v & Hv & M). destruct (numbered_in _ v vs Hv) as (n & Hp). exists (n, v). auto.
  Qed.
End Returns.
