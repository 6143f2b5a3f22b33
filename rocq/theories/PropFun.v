(** Property C58: the probability of comparisons of functions of variables can be computed. *)
From Coq Require Import List Bool String Reals Lra Lia ZArith QArith Qreals PeanoNat.
From Verif Require Import Base Num Sets SetSpec SetIv SetProofs SetOr SetOps SetAlg SetBuilt
  Poly Trans TransSpec TransFacts PolyProofs InvProofs InvMain EvProofs ArithProofs
  Dnf DnfSpec DnfProofs DnfUnion PropDnf Logs Spe SpeSpec SpeFacts SpeRect LeafProofs LeafEvents LeafCond SpeCons LeafGiven MemoProofs
  NormSorts LogprobProofs LogprobTop SpeEq SimplifyProofs CondTypes CondProofs CondTop PropSpe TotalSpec TotalSets TotalSolve TotalProofs PropTotal SolveSpec InvTotal AskSpec NarrowTotal TotalAsk PropAsk TotalUnion TotalGrid CondLeafTotal SimplifyTotal TightUnion Diffuse CondTotal PropCondTotal FunSpec FunTotal.
Import ListNotations.
Local Open Scope R_scope.

Section Properties.
  Context {N : numsys} {S : logsys} {D : distsys N S} (io : iterorder N) (so : strorder) (po : polyoracle N) (fuel : nat).
  Context (dlaw : dist D -> (fval -> R) -> R) (Ed : eq_dist dlaw).
  Context (ident : spe D -> nat) (hash : spe D -> Z) (nominal : string -> bool) (cuts points : string -> R -> Prop) (envof : string -> tenv (N:=N)).
  Notation spe := (spe D).
  Notation tr := (tr N).
  Notation prob := (prob dlaw).
  Notation wf_spe := (wf_spe dlaw).
  Notation wf_leaf := (wf_leaf dlaw).
  Notation logprob := (logprob io po fuel ident).
  Notation posed := (posed po nominal cuts points).
  Notation distinct := (distinct ident).
  Notation prepared := (prepared (D:=D) po nominal cuts points).
  Notation surely := (surely dlaw).
  Context (Hf : (2 <= fuel)%nat).

  Lemma posed_kinds : forall e, posed e -> event_kinds nominal e.
  Proof.
    intros e (_ & F & _). unfold event_kinds. eapply Forall_impl; [|exact F]. intros a [(k & x & v & -> & Fv)|(j & t & v & x & -> & Ch & _)].
    - unfold kind_ok. destruct (nominal x) eqn:E; [right; intros y [<-|[]]; exact E|]. left. destruct Fv as (Nk & _). destruct k; cbn; auto.
    - left. destruct j; cbn in *; auto.
  Qed.

  Section Answers.
    Context (U : spe -> Prop) (Uc : closed ident U).
    Context (C1 : list ((nat * factor (N:=N)) * spe) -> Prop) (C2 : list ((nat * assignment (N:=N)) * (nat * lg S)) -> Prop) (C3 : list ((nat * assignment (N:=N)) * spe) -> Prop).
    Notation valid := (valid dlaw ident U C1 C2 C3).
    Context (asked : string -> Prop).
    Lemma fun_safe : forall s e, U s -> wf_spe s -> prepared asked true s -> posed e -> (forall x, In x (symbols e) -> ask asked s x) -> is_leaf s = false -> safe valid (logprob s e).
    Proof.
      intros s e Us W P Pe V Il. unfold Spe.logprob. rewrite Il. destruct (posed_normalize io po fuel nominal cuts points (fun _ => True) e Hf Pe ltac:(apply Forall_forall; auto)) as (o & En & Ko).
      apply safe_bind with (P := fun o' => o' = o); [apply sat_lift; congruence|apply safe_lift; eauto|]. intros o' ->. destruct o as [d|]; [|apply safe_ret].
      pose proof (Ko d eq_refl) as Cd.
      assert (exists f, dnf_factor io d = Ok f) as (f & Ef).
      { apply C16_total; [apply Cd| |now apply (cmps_on_vars nominal cuts points)]. destruct (dnf_normalize_ok io po fuel e _ (proj1 Pe) En) as (_ & Dd & _). exact Dd. }
      apply safe_bind with (P := fun f' => f' = f); [apply sat_lift; congruence|apply safe_lift; eauto|]. intros f' ->.
      apply (ask_mem_safe io po fuel dlaw ident nominal cuts points asked Hf U Uc C1 C2 C3 s Us W true P); [|discriminate].
      apply (qfactor_clauses io po fuel hash nominal cuts points asked s e d f); auto; [apply Pe|now apply posed_kinds].
    Qed.
  End Answers.

  (** Any combination of comparisons of the variables of a sum or product and of functions of them:
      the question is answered, and the answer is the probability of the event if the functions are
      defined almost surely. *)
  Theorem C58_answers_partial : forall s e, wf_spe s -> distinct s -> is_leaf s = false -> prepared (fun x => In x (symbols e)) true s -> posed e -> (forall x, In x (symbols e) -> vars s x) ->
    exists p, fresh (logprob s e) = Ok p /\ (surely s (regular true e) -> toP p = prob s e).
  Proof.
    intros s e W Ds Il P Pe V.
    destruct (fun_safe (within s) (within_closed ident s Ds) (fun _ => True) (fun _ => True) (fun _ => True) (fun x => In x (symbols e)) s e (within_self s) W P Pe ltac:(intros x Hx; split; auto) Il Memo) as (p & Ep); [repeat split; constructor|].
    exists p. split; auto. intros Sr. apply (C22_logprob io po fuel dlaw ident nominal s e p); auto; [eapply prepared_atoms; eauto|]. split; [apply Pe|]. split; [exact Sr|now apply posed_kinds].
  Qed.
  (** the same after any history of queries through the same memo table *)
  Theorem C58_after_partial : forall U h s e, closed ident U -> Forall (fine dlaw nominal envof U) h -> U s -> wf_spe s -> is_leaf s = false -> prepared (fun x => In x (symbols e)) true s -> posed e -> (forall x, In x (symbols e) -> vars s x) ->
    exists p, fst (logprob s e (table io so po fuel ident hash h)) = Ok p /\ (surely s (regular true e) -> toP p = prob s e).
  Proof.
    intros U h s e Uc Fh Us W Il P Pe V. pose proof (table_valid io so po fuel dlaw Ed ident hash nominal envof U Uc h Fh) as Vt.
    destruct (fun_safe U Uc _ _ _ (fun x => In x (symbols e)) s e Us W P Pe ltac:(intros x Hx; split; auto) Il _ Vt) as (p & Ep). exists p. split; auto.
    intros Sr. apply (C30_logprob io so po fuel dlaw Ed ident hash nominal envof U Uc h s e p); auto; [eapply prepared_atoms; eauto|]. split; [apply Pe|]. split; [exact Sr|now apply posed_kinds].
  Qed.

  (** A leaf whose support does not contain its ends, asked about functions of its variable. *)
  Theorem C58_leaf : forall s e, wf_leaf s -> match s with RealLeaf _ _ _ supp _ _ => iv_lo supp = true /\ iv_ro supp = true | AtomicLeaf _ _ _ => True | _ => False end ->
    solvable po e -> symbols e = [var_of s] -> exists p, leaf_logprob io po fuel s e = Ok p.
  Proof.
    intros s e W O So Sy. unfold leaf_logprob. fold (var_of s). rewrite leaf_event_total by (auto; now apply (leaf_built dlaw)). cbn [bind].
    destruct (solve_total io po fuel e Hf So) as (v & Ev & Wv & Rv). rewrite Ev. cbn [bind].
    apply (solved_total io dlaw (fun _ => false) (fun _ _ => True) (fun _ _ => True) s v W); auto.
    - destruct s; try contradiction; cbn [TotalSpec.open_leaves]; split; auto; discriminate.
    - split; auto. split; [intros i _ r _; exact Logic.I|intros; now left].
    - right. destruct s; try contradiction; cbn [TotalSpec.open_leaves]; split; auto. intros _. split; left; apply O.
  Qed.
  Corollary C58_leaf_answers : forall s e, wf_spe s -> distinct s -> atoms_ok nominal s -> match s with RealLeaf _ _ _ supp _ _ => iv_lo supp = true /\ iv_ro supp = true | AtomicLeaf _ _ _ => True | _ => False end ->
    solvable po e -> gev e -> symbols e = [var_of s] -> exists p, fresh (logprob s e) = Ok p /\ (surely s (regular true e) -> toP p = prob s e).
  Proof.
    intros s e W Ds At O So G Sy. assert (Il : is_leaf s = true) by (destruct s; try contradiction; reflexivity). assert (Wl : wf_leaf s) by (apply wf_leaf_spe; auto).
    destruct (C58_leaf s e Wl O So Sy) as (p & Ep).
    assert (K : fresh (logprob s e) = Ok p).
    { unfold fresh, Spe.logprob. rewrite Il. unfold leaf_logprob in Ep. inv_bind Ep. rewrite E. cbn [lift mbind fst snd]. unfold mbind, lift. cbn. rewrite Ep. reflexivity. }
    exists p. split; auto. intros Sr. apply (C22_logprob io po fuel dlaw ident nominal s e p); auto. split; auto. split; auto.
    assert (Cl : Forall (chained po) (lits e)).
    { destruct e; try contradiction; cbn [solvable lits] in *; [auto|]. destruct So as (_ & F & _). clear -F. induction F as [|a l Ca F IH]; [constructor|]. cbn [map List.concat]. apply Forall_app. split; auto. destruct a; try contradiction. cbn [lits]. auto. }
    unfold event_kinds. eapply Forall_impl; [|exact Cl]. intros a Ca. left. destruct a; try contradiction. destruct k; cbn in *; auto.
  Qed.

  (** ** Conditioning on conjunctions *)
  Notation typed := (typed (D:=D) nominal envof).
  Notation condition := (condition io so po fuel ident hash).
  Notation open_leaves := (open_leaves (D:=D) nominal cuts).
  Notation steady := (steady (D:=D) cuts points).
  Lemma posed_sorts : forall e, posed e -> event_sorts nominal e.
  Proof.
    intros e (G & F & _). pose proof (gev_lits _ G) as Gl. unfold event_sorts. rewrite Forall_forall in *. intros a Ha. destruct (Gl a Ha) as (Ga & _). destruct (F a Ha) as [(k & x & v & -> & Fv)|(j & t & v & x & -> & Ch & _ & Sx & Nx & _)].
    - unfold sort_ok. destruct (nominal x) eqn:E.
      + right. exists k, x, v. split; auto. split; auto. destruct Fv as [->|Nv]; [now left|right]. pose proof (gev_wf _ _ _ Ga) as (_ & _ & K & _). destruct k; auto; [destruct K as (i & ->)|destruct K as [-> |(vs & ->)]]; destruct Nv.
      + left. destruct Fv as (Nk & _). split; [destruct k; cbn; tauto|]. intros y [<-|[]]. exact E.
    - left. split; [destruct j; cbn in *; auto|]. cbn [symbols]. rewrite Sx. intros y [<-|[]]. exact Nx.
  Qed.
  Section Conditions.
    Context (U : spe -> Prop) (Uc : closed ident U).
    Context (C2 : list ((nat * assignment (N:=N)) * (nat * lg S)) -> Prop) (C3 : list ((nat * assignment (N:=N)) * spe) -> Prop).
    Notation valid := (valid dlaw ident U (Forall (centry_ok dlaw ident nominal envof U)) C2 C3).
    Lemma fun_condition_safe : forall s e, U s -> wf_spe s -> typed s -> is_leaf s = false -> open_leaves false s -> steady s -> posed e -> conjunctive e -> Forall thin (lits e) -> (forall x, In x (symbols e) -> own s x) ->
      surely s (regular true e) -> (forall w, 0 < SpeSpec.den dlaw s (ind (holds e)) w) -> safe valid (condition s e).
    Proof.
      intros s e Us W T Il O St Pe Cj Th V Sr Pos. unfold Spe.condition. rewrite Il.
      destruct (posed_normalize io po fuel nominal cuts points (fun _ => True) e Hf Pe ltac:(apply Forall_forall; auto)) as (o & En & Ko).
      apply safe_bind with (P := fun o' => o' = o); [apply sat_lift; congruence|apply safe_lift; eauto|]. intros o' ->.
      destruct o as [d|].
      - destruct (dnf_normalize_ok io po fuel e _ (proj1 Pe) En) as (Gd & Dd & _ & Hd). pose proof (Ko d eq_refl) as Cd. pose proof (posed_one io po fuel nominal cuts points e d Hf Pe Th Cj En) as Od.
        assert (En0 : nonzero_clauses io po fuel ident s d = mret d) by (destruct Od as [B|(l & ->)]; [destruct d; try discriminate B; reflexivity|reflexivity]). rewrite En0.
        apply safe_bind with (P := fun d' => d' = d); [now apply sat_ret|apply safe_ret|]. intros d' ->.
        assert (Eu : disjoint_union io po fuel fuel d = Ok d) by (destruct Od as [B|(l & ->)]; [destruct d; try discriminate B; destruct fuel; reflexivity|destruct fuel; reflexivity]).
        apply safe_bind with (P := fun d' => d' = d); [apply sat_lift; congruence|apply safe_lift; eauto|]. intros d' ->.
        apply (factored_safe io so po fuel dlaw Ed ident hash nominal envof ltac:(lia) U Uc C2 C3 cuts points s false); auto.
        + now apply steady_inside.
        + intros x Hx. apply V. pose proof (normalize_kinds io po fuel nominal e d (proj1 Pe) (posed_kinds e Pe) En) as Lk. exact (in_symbols nominal _ _ Lk x Hx).
        + unfold disjoint_clauses. destruct Od as [B|(l & ->)]; [destruct d; try discriminate B|]; repeat constructor.
        + intros w. rewrite (den_same dlaw hash s (holds d) (holds e)); auto. intros w'. apply (law_null_sub (den_kernel dlaw s W w') (fun a => ~ regular true e a)); [apply Sr|]. intros a Ha K. apply Ha. apply (Hd a true K).
      - exfalso. pose proof (dnf_normalize_ok io po fuel e None (proj1 Pe) En) as Nh. specialize (Pos w0). rewrite (law_null_sub (den_kernel dlaw s W w0) (fun a => ~ regular true e a)) in Pos; [lra|apply Sr|]. intros a Ha K. exact (Nh a true K Ha).
    Qed.
  End Conditions.
  Lemma posed_conditionable : forall s e, wf_spe s -> posed e -> surely s (regular true e) -> (forall x, In x (symbols e) -> own s x) -> conditionable dlaw nominal s e.
  Proof. intros s e W Pe Sr V. split; [apply Pe|]. split; auto. split; [now apply posed_sorts|]. intros x Hx. apply (own_vars dlaw); auto. Qed.
  (** Conjunctions of comparisons of variables and of one-to-one functions of continuous variables:
      conditioning returns the conditional distribution exactly when the probability is not zero. *)
  Theorem C58_condition_partial : forall s e, wf_spe s -> typed s -> distinct s -> is_leaf s = false -> open_leaves false s -> steady s -> posed e -> conjunctive e -> Forall thin (lits e) -> (forall x, In x (symbols e) -> own s x) ->
    surely s (regular true e) -> 0 < prob s e -> exists t, fresh (condition s e) = Ok t /\ wf_spe t /\ (forall x, vars t x <-> vars s x) /\ given dlaw s (holds e) t.
  Proof.
    intros s e W T Ds Il O St Pe Cj Th V Sr P.
    destruct (fun_condition_safe (within s) (within_closed ident s Ds) (fun _ => True) (fun _ => True) s e (within_self s) W T Il O St Pe Cj Th V Sr (PropCondTotal.prob_den dlaw ident hash s e W (proj1 Pe) V P) Memo) as (t & Et); [repeat split; constructor|].
    exists t. split; auto. destruct (C24_given io so po fuel dlaw Ed ident hash nominal envof s e t W T Ds (posed_conditionable s e W Pe Sr V) Et) as (A & _ & B & C). auto.
  Qed.
  Theorem C58_condition_exactly_partial : forall s e, wf_spe s -> typed s -> distinct s -> is_leaf s = false -> open_leaves false s -> steady s -> posed e -> conjunctive e -> Forall thin (lits e) -> (forall x, In x (symbols e) -> own s x) ->
    surely s (regular true e) -> ((exists t, fresh (condition s e) = Ok t) <-> prob s e <> 0).
  Proof.
    intros s e W T Ds Il O St Pe Cj Th V Sr. split.
    - intros (t & Et) Z. destruct (C25_null_partial io so po fuel dlaw Ed ident hash nominal envof s e W T Ds (posed_conditionable s e W Pe Sr V) Z) as (x & Ex). congruence.
    - intros Nz. destruct (C58_condition_partial s e) as (t & Et & _); eauto. assert (0 <= prob s e) by apply (law_01 (den_kernel dlaw s W w0)). lra.
  Qed.
End Properties.
