(** Property C54: the probability of comparisons of variables can always be computed. *)
From Coq Require Import List Bool String Reals Lra Lia ZArith QArith Qreals PeanoNat.
From Verif Require Import Base Num Sets SetSpec SetIv SetProofs SetOr SetOps SetAlg SetBuilt
  Poly Trans TransSpec TransFacts PolyProofs InvProofs InvMain EvProofs ArithProofs
  Dnf DnfSpec DnfProofs DnfUnion PropDnf Logs Spe SpeSpec SpeFacts SpeRect LeafProofs LeafEvents LeafCond SpeCons LeafGiven MemoProofs
  NormSorts LogprobProofs LogprobTop SpeEq SimplifyProofs CondTypes CondProofs CondTop PropSpe TotalSpec TotalSets TotalSolve TotalProofs.
Import ListNotations.
Local Open Scope R_scope.

Section Properties.
  Context {N : numsys} {S : logsys} {D : distsys N S} (io : iterorder N) (so : strorder) (po : polyoracle N) (fuel : nat).
  Context (dlaw : dist D -> (fval -> R) -> R) (Ed : eq_dist dlaw).
  Context (ident : spe D -> nat) (hash : spe D -> Z) (nominal : string -> bool) (cuts points : string -> R -> Prop) (envof : string -> tenv (N:=N)).
  Notation spe := (spe D).
  Notation tr := (tr N).
  Notation prob := (prob dlaw).
  Notation wf_spe := (wf_spe dlaw).
  Notation wf_leaf := (wf_leaf dlaw).
  Notation logprob := (logprob io po fuel ident).
  Notation direct := (direct (N:=N) nominal cuts points).
  Notation open_leaves := (open_leaves (D:=D) nominal cuts).
  Notation cmps := (cmps (N:=N) nominal cuts points).
  Notation cmp := (cmp (N:=N) nominal cuts points).
  Notation askable := (askable dlaw nominal).
  Notation distinct := (distinct ident).
  Context (Hf : (1 <= fuel)%nat).

  (** ** Normalisation *)
  (** comparisons have a normal form, which again consists of comparisons *)
  Theorem C54_normalize : forall e, direct e -> exists o, dnf_normalize io po fuel e = Ok o /\ forall d, o = Some d -> direct d.
  Proof.
    intros e He. apply direct_cmps in He. destruct (normalize_total io po fuel nominal cuts points e He) as (o & E & K). exists o. split; auto. intros d Hd. destruct (K d Hd) as (G & F). split; auto.
    eapply Forall_impl; [|exact F]. intros a (x & _ & k & v & -> & Fv). exists k, x, v. split; auto.
  Qed.
  Lemma normalize_one : forall e d, cmps e -> conjunctive e -> dnf_normalize io po fuel e = Ok (Some d) -> one_clause d.
  Proof.
    intros e d C Cj H. destruct (dnf_normalize_cases io po fuel e) as [(k & x & v & -> & E)|E]; rewrite E in H; clear E.
    - injection H as <-. now left.
    - unfold normalize_general in H. inv_bind H. pose proof (to_dnf_one e r Cj E) as O1. inv_bind H. pose proof (factor_one io r r0 O1 E0) as L.
      destruct (to_dnf_total nominal cuts points e C) as (d' & E' & Cd & _). rewrite E in E'. injection E' as <-. pose proof (factor_cmp io nominal cuts points r r0 Cd E0) as Fc.
      destruct r0 as [|c [|c' r0]]; try discriminate L. inversion Fc as [|? ? Cc _]; subst. destruct (solve_clause_total io po fuel nominal cuts points c Cc) as (s & Es & Cs). cbn [mapM] in H. rewrite Es in H. cbn [bind] in H.
      cbn [filter] in H. destruct (all_nonempty s) eqn:An; [|discriminate H]. cbn [unseen] in H. unfold inb at 1 in H. cbn [existsb] in H. cbn [mapM] in H. inv_bind H. inv_bind E1. injection E1 as <-. cbn [reduceM foldM bind] in H. inv_bind H. injection H as <-.
      refine (to_dnf_one _ _ _ E1). unfold conj_of in E2. inv_bind E2. apply (reduce_conjunctive io r2); auto. apply mapM_Forall2 in E3. destruct Cs as (_ & Fs). unfold all_nonempty in An. rewrite forallb_forall in An. clear -E3 Fs An.
      induction E3 as [|p a c l Hp F IH]; constructor; inversion Fs as [|? ? (k & Ck) Fs']; subst; [|apply IH; auto; intros q Hq; apply An; now right].
      rewrite (t_in_cmp io nominal cuts points (fst p) k (snd p) Ck) in Hp; [injection Hp as <-; exact Logic.I|]. intros E. specialize (An p ltac:(now left)). rewrite E in An. discriminate An.
  Qed.

  (** ** Probabilities *)
  Section Answers.
    Context (U : spe -> Prop) (Uc : closed ident U).
    Context (C1 : list ((nat * factor (N:=N)) * spe) -> Prop) (C2 : list ((nat * assignment (N:=N)) * (nat * lg S)) -> Prop) (C3 : list ((nat * assignment (N:=N)) * spe) -> Prop).
    Notation valid := (valid dlaw ident U C1 C2 C3).
    Lemma direct_kinds : forall e, cmps e -> event_kinds nominal e.
    Proof.
      intros e (_ & F). unfold event_kinds. eapply Forall_impl; [|exact F]. intros a (x & _ & k & v & -> & Fv). unfold fits in Fv. unfold kind_ok. destruct (nominal x) eqn:E.
      - right. intros y [<-|[]]. exact E.
      - left. destruct Fv as (Nk & _). destruct k; cbn; auto.
    Qed.
    Lemma factor_clauses : forall (s : spe) e d f, cmps e -> dnf_normalize io po fuel e = Ok (Some d) -> cmps d -> dnf_factor io d = Ok f -> (forall x, In x (symbols e) -> own s x) -> afactor nominal cuts points s f.
    Proof.
      intros s e d f C En Cd Ef V. pose proof (factor_cmp io nominal cuts points d f Cd Ef) as Fc. pose proof (normalize_kinds io po fuel nominal e d (proj1 C) (direct_kinds e C) En) as Lk. split.
      - unfold dnf_factor in Ef. destruct d as [| | | | | | | |k t v|l|l] eqn:Ed'; try discriminate Ef; cbn [dnf_factor_with] in Ef; inv_bind Ef; try (injection Ef as <-; discriminate).
        destruct Cd as (Gd & _). apply gev_or in Gd. destruct l; [tauto|]. cbn [mapM] in Ef. inv_bind Ef. inv_bind Ef. injection Ef as <-. discriminate.
      - apply Forall_forall. intros c Hc. rewrite Forall_forall in Fc. pose proof (Fc c Hc) as Cc. split; auto. destruct (C16_keys io _ d f (proj1 Cd) Ef c Hc) as (_ & Nd & K). split; auto.
        intros (k, a) Hp. cbn [fst]. destruct Cc as (_ & Fcc). rewrite Forall_forall in Fcc. pose proof (Fcc _ Hp) as Ca. cbn [fst snd] in Ca. destruct (K k a Hp) as (_ & Kl). specialize (Kl k). rewrite (cmp_symbols nominal cuts points k a Ca) in Kl. specialize (Kl ltac:(now left)).
        apply lookup_self in Kl. destruct Kl as (_ & Kl). apply V. apply symbols_lits in Kl. destruct Kl as (y & Hy & Ky). rewrite Forall_forall in Lk. destruct (Lk y Hy) as (_ & x & Hx & k' & v & -> & _). destruct Ky as [<-|[]]. exact Hx.
    Qed.
    Lemma leaf_flat : forall s e, wf_leaf s -> open_leaves false s -> cmps e -> is_leaf s = true -> leaf_form s e -> (forall x, In x (symbols e) -> own s x) -> flat nominal cuts points (var_of s) e.
    Proof.
      intros s e W O (G & F) Il Lf V.
      assert (Vx : forall x, own s x -> x = var_of s) by (intros x Hx; now apply (leaf_own dlaw s)).
      assert (K : forall a, In a (lits e) -> cmp (var_of s) a).
      { intros a Ha. rewrite Forall_forall in F. destruct (F a Ha) as (x & Ca). replace (var_of s) with x; auto. apply Vx, V. apply symbols_lits. exists a. split; auto. rewrite (cmp_symbols nominal cuts points x a Ca). now left. }
      destruct (Lf Il) as [B|(l & -> & Bl)].
      - left. apply K. rewrite (basic_lits e B). now left.
      - right. exists l. apply gev_or in G. split; [reflexivity|]. split; [apply G|]. apply Forall_forall. intros a Ha. apply K. cbn [lits]. rewrite Forall_forall in Bl. apply in_concat. exists (lits a). split; [now apply in_map|]. rewrite (basic_lits a (Bl a Ha)). now left.
    Qed.
    Lemma logprob_safe : forall s e many, U s -> wf_spe s -> open_leaves many s -> direct e -> (forall x, In x (symbols e) -> own s x) -> leaf_form s e ->
      (many = false -> conjunctive e) -> safe valid (logprob s e).
    Proof.
      intros s e many Us W O De V Lf Cj. apply direct_cmps in De. unfold Spe.logprob. destruct (is_leaf s) eqn:Il.
      - assert (Wl : wf_leaf s) by (apply wf_leaf_spe; auto). pose proof (open_weaken nominal cuts s many O) as Ow. pose proof (leaf_flat s e Wl Ow De Il Lf V) as Fl.
        assert (Tot : exists p, leaf_logprob io po fuel s e = Ok p).
        { apply (leaf_total io po fuel dlaw nominal cuts points); auto. destruct many; auto. left. specialize (Cj eq_refl). destruct (Lf Il) as [B|(l & -> & _)]; [auto|contradiction]. }
        destruct Tot as (p & Ep). unfold leaf_logprob in Ep. inv_bind Ep. rewrite E.
        apply safe_bind with (P := fun e' => e' = r); [apply sat_lift; congruence|apply safe_lift; eauto|]. intros e' ->. apply memo_safe. apply safe_lift. exists p. exact Ep.
      - destruct (normalize_total io po fuel nominal cuts points e De) as (o & En & Ko).
        apply safe_bind with (P := fun o' => o' = o); [apply sat_lift; congruence|apply safe_lift; eauto|]. intros o' ->. destruct o as [d|]; [|apply safe_ret].
        pose proof (Ko d eq_refl) as Cd.
        assert (exists f, dnf_factor io d = Ok f) as (f & Ef).
        { apply C16_total; [apply Cd| |now apply (cmps_on_vars nominal cuts points)]. destruct (dnf_normalize_ok io po fuel e _ (proj1 De) En) as (_ & Dd & _). exact Dd. }
        apply safe_bind with (P := fun f' => f' = f); [apply sat_lift; congruence|apply safe_lift; eauto|]. intros f' ->.
        apply (mem_safe io po fuel dlaw ident nominal cuts points Hf U Uc C1 C2 C3 s Us W many O); [now apply (factor_clauses s e d f)|].
        intros Em. apply (factor_one io d f); auto. apply (normalize_one e); auto.
    Qed.
  End Answers.
  Lemma direct_askable : forall s e, wf_spe s -> direct e -> askable s e.
  Proof.
    intros s e W De. apply direct_cmps in De. split; [apply De|]. split; [|now apply direct_kinds]. intros w.
    rewrite (law_ext (I:=fun g => SpeSpec.den dlaw s g w) _ (fun _ => 0)); [apply (law_const (den_kernel dlaw s W w))|]. intros a. apply ind_false. intros K. apply K. apply on_vars_regular; [apply De|now apply (cmps_on_vars nominal cuts points)].
  Qed.

  (** any combination of comparisons, if the supports of the numeric leaves outside products are
      open or end at numbers that the event does not compare with by <, <=, > or >= *)
  Theorem C54_answers_partial : forall s e, wf_spe s -> distinct s -> open_leaves true s -> direct e -> (forall x, In x (symbols e) -> own s x) -> leaf_form s e ->
    exists p, fresh (logprob s e) = Ok p /\ toP p = prob s e.
  Proof.
    intros s e W Ds O De V Lf.
    destruct (logprob_safe (within s) (within_closed ident s Ds) (fun _ => True) (fun _ => True) (fun _ => True) s e true (within_self s) W O De V Lf ltac:(discriminate) Memo) as (p & Ep); [repeat split; constructor|].
    exists p. split; auto. apply (C22_logprob io po fuel dlaw ident nominal s e p); auto; [now apply (open_atoms nominal cuts s true)|now apply direct_askable].
  Qed.
  (** conjunctions of comparisons, whatever the supports *)
  Theorem C54_conjunctions_partial : forall s e, wf_spe s -> distinct s -> open_leaves false s -> direct e -> conjunctive e -> (forall x, In x (symbols e) -> own s x) -> leaf_form s e ->
    exists p, fresh (logprob s e) = Ok p /\ toP p = prob s e.
  Proof.
    intros s e W Ds O De Cj V Lf.
    destruct (logprob_safe (within s) (within_closed ident s Ds) (fun _ => True) (fun _ => True) (fun _ => True) s e false (within_self s) W O De V Lf ltac:(auto) Memo) as (p & Ep); [repeat split; constructor|].
    exists p. split; auto. apply (C22_logprob io po fuel dlaw ident nominal s e p); auto; [now apply (open_atoms nominal cuts s false)|now apply direct_askable].
  Qed.
  (** the same after any history of queries through the same memo table *)
  Theorem C54_after_partial : forall U h s e, closed ident U -> Forall (fine dlaw nominal envof U) h -> U s -> wf_spe s -> open_leaves true s -> direct e -> (forall x, In x (symbols e) -> own s x) -> leaf_form s e ->
    exists p, fst (logprob s e (table io so po fuel ident hash h)) = Ok p /\ toP p = prob s e.
  Proof.
    intros U h s e Uc Fh Us W O De V Lf. pose proof (table_valid io so po fuel dlaw Ed ident hash nominal envof U Uc h Fh) as Vt.
    destruct (logprob_safe U Uc _ _ _ s e true Us W O De V Lf ltac:(discriminate) _ Vt) as (p & Ep). exists p. split; auto.
    apply (C30_logprob io so po fuel dlaw Ed ident hash nominal envof U Uc h s e p); auto; [now apply (open_atoms nominal cuts s true)|now apply direct_askable].
  Qed.
End Properties.
