(** Property C57: the probability of comparisons of derived variables can be computed. *)
From Coq Require Import List Bool String Reals Lra Lia ZArith QArith Qreals PeanoNat.
From Verif Require Import Base Num Sets SetSpec SetIv SetProofs SetOr SetOps SetAlg SetBuilt
  Poly Trans TransSpec TransFacts PolyProofs InvProofs InvMain EvProofs ArithProofs
  Dnf DnfSpec DnfProofs DnfUnion PropDnf Logs Spe SpeSpec SpeFacts SpeRect LeafProofs LeafEvents LeafCond SpeCons LeafGiven MemoProofs
  NormSorts LogprobProofs LogprobTop SpeEq SimplifyProofs CondTypes CondProofs CondTop PropSpe TotalSpec TotalSets TotalSolve TotalProofs PropTotal SolveSpec InvTotal AskSpec NarrowTotal TotalAsk.
Import ListNotations.
Local Open Scope R_scope.

Section Properties.
  Context {N : numsys} {S : logsys} {D : distsys N S} (io : iterorder N) (so : strorder) (po : polyoracle N) (fuel : nat).
  Context (dlaw : dist D -> (fval -> R) -> R) (Ed : eq_dist dlaw).
  Context (ident : spe D -> nat) (hash : spe D -> Z) (nominal : string -> bool) (cuts points : string -> R -> Prop) (envof : string -> tenv (N:=N)).
  Notation spe := (spe D).
  Notation tr := (tr N).
  Notation prob := (prob dlaw).
  Notation wf_spe := (wf_spe dlaw).
  Notation wf_leaf := (wf_leaf dlaw).
  Notation logprob := (logprob io po fuel ident).
  Notation direct := (direct (N:=N) nominal cuts points).
  Notation cmps := (cmps (N:=N) nominal cuts points).
  Notation cmp := (cmp (N:=N) nominal cuts points).
  Notation distinct := (distinct ident).
  Notation prepared := (prepared (D:=D) po nominal cuts points).
  Context (Hf : (2 <= fuel)%nat).

  Section Answers.
    Context (U : spe -> Prop) (Uc : closed ident U).
    Context (C1 : list ((nat * factor (N:=N)) * spe) -> Prop) (C2 : list ((nat * assignment (N:=N)) * (nat * lg S)) -> Prop) (C3 : list ((nat * assignment (N:=N)) * spe) -> Prop).
    Notation valid := (valid dlaw ident U C1 C2 C3).
    Context (asked : string -> Prop).
    Lemma qfactor_clauses : forall (s : spe) e d f, gev e -> event_kinds nominal e -> dnf_normalize io po fuel e = Ok (Some d) -> cmps d -> dnf_factor io d = Ok f -> (forall x, In x (symbols e) -> ask asked s x) -> qfactor nominal cuts points asked s f.
    Proof.
      intros s e d f Ge Ke En Cd Ef V. pose proof (factor_cmp io nominal cuts points d f Cd Ef) as Fc. pose proof (normalize_kinds io po fuel nominal e d Ge Ke En) as Lk. split.
      - unfold dnf_factor in Ef. destruct d as [| | | | | | | |k t v|l|l] eqn:Ed'; try discriminate Ef; cbn [dnf_factor_with] in Ef; inv_bind Ef; try (injection Ef as <-; discriminate).
        destruct Cd as (Gd & _). apply gev_or in Gd. destruct l; [tauto|]. cbn [mapM] in Ef. inv_bind Ef. inv_bind Ef. injection Ef as <-. discriminate.
      - apply Forall_forall. intros c Hc. rewrite Forall_forall in Fc. pose proof (Fc c Hc) as Cc. split; auto. destruct (C16_keys io _ d f (proj1 Cd) Ef c Hc) as (_ & Nd & K). split; auto.
        intros (k, a) Hp. cbn [fst]. destruct Cc as (_ & Fcc). rewrite Forall_forall in Fcc. pose proof (Fcc _ Hp) as Ca. cbn [fst snd] in Ca. destruct (K k a Hp) as (_ & Kl). specialize (Kl k). rewrite (cmp_symbols nominal cuts points k a Ca) in Kl. specialize (Kl ltac:(now left)).
        apply lookup_self in Kl. destruct Kl as (_ & Kl). apply V. apply symbols_lits in Kl. destruct Kl as (y & Hy & Ky). rewrite Forall_forall in Lk. destruct (Lk y Hy) as (_ & x & Hx & k' & v & -> & _). destruct Ky as [<-|[]]. exact Hx.
    Qed.
    Lemma leaf_ask_flat : forall s e many, wf_leaf s -> prepared asked many s -> cmps e -> is_leaf s = true -> leaf_form s e -> (forall x, In x (symbols e) -> ask asked s x) -> exists z, ask asked s z /\ flat nominal cuts points z e.
    Proof.
      intros s e many W P (G & F) Il Lf V.
      assert (L : forall a, In a (lits e) -> exists x, ask asked s x /\ cmp x a).
      { intros a Ha. rewrite Forall_forall in F. destruct (F a Ha) as (x & Ca). exists x. split; auto. apply V. apply symbols_lits. exists a. split; auto. rewrite (cmp_symbols nominal cuts points x a Ca). now left. }
      assert (Ne : exists a, In a (lits e)).
      { destruct (Lf Il) as [B|(l & -> & Bl)]; [rewrite (basic_lits e B); eexists; now left|]. apply gev_or in G. destruct G as (Ne & _). destruct l as [|a l]; [tauto|]. inversion Bl; subst. exists a. cbn [lits map List.concat]. rewrite (basic_lits a) by auto. now left. }
      destruct Ne as (a0 & H0). destruct (L a0 H0) as (z & Az & _). exists z. split; auto.
      assert (K : forall a, In a (lits e) -> cmp z a) by (intros a Ha; destruct (L a Ha) as (x & Ax & Cx); now rewrite <- (ask_lone po dlaw nominal cuts points asked s many x z W P Ax Az)).
      destruct (Lf Il) as [B|(l & -> & Bl)].
      - left. apply K. rewrite (basic_lits e B). now left.
      - right. exists l. apply gev_or in G. split; [reflexivity|]. split; [apply G|]. apply Forall_forall. intros a Ha. apply K. cbn [lits]. rewrite Forall_forall in Bl. apply in_concat. exists (lits a). split; [now apply in_map|]. rewrite (basic_lits a (Bl a Ha)). now left.
    Qed.
    Lemma ask_safe : forall s e many, U s -> wf_spe s -> prepared asked many s -> direct e -> (forall x, In x (symbols e) -> ask asked s x) -> leaf_form s e ->
      (many = false -> conjunctive e) -> safe valid (logprob s e).
    Proof.
      intros s e many Us W P De V Lf Cj. apply direct_cmps in De. unfold Spe.logprob. destruct (is_leaf s) eqn:Il.
      - assert (Wl : wf_leaf s) by (apply wf_leaf_spe; auto). destruct (leaf_ask_flat s e many Wl P De Il Lf V) as (z & Az & Fl).
        assert (Tot : exists p, leaf_logprob io po fuel s e = Ok p).
        { apply (flat_total io po fuel dlaw nominal cuts points asked s many z); auto. intros Em. specialize (Cj Em). destruct (Lf Il) as [B|(l & -> & _)]; [auto|contradiction]. }
        destruct Tot as (p & Ep). unfold leaf_logprob in Ep. inv_bind Ep. rewrite E.
        apply safe_bind with (P := fun e' => e' = r); [apply sat_lift; congruence|apply safe_lift; eauto|]. intros e' ->. apply memo_safe. apply safe_lift. exists p. exact Ep.
      - destruct (normalize_total io po fuel nominal cuts points e De) as (o & En & Ko).
        apply safe_bind with (P := fun o' => o' = o); [apply sat_lift; congruence|apply safe_lift; eauto|]. intros o' ->. destruct o as [d|]; [|apply safe_ret].
        pose proof (Ko d eq_refl) as Cd.
        assert (exists f, dnf_factor io d = Ok f) as (f & Ef).
        { apply C16_total; [apply Cd| |now apply (cmps_on_vars nominal cuts points)]. destruct (dnf_normalize_ok io po fuel e _ (proj1 De) En) as (_ & Dd & _). exact Dd. }
        apply safe_bind with (P := fun f' => f' = f); [apply sat_lift; congruence|apply safe_lift; eauto|]. intros f' ->.
        apply (ask_mem_safe io po fuel dlaw ident nominal cuts points asked Hf U Uc C1 C2 C3 s Us W many P); [apply (qfactor_clauses s e d f); auto; [apply De|now apply (direct_kinds nominal cuts points)]|].
        intros Em. apply (factor_one io d f); auto. apply (normalize_one io po fuel nominal cuts points e); auto.
    Qed.
  End Answers.

  (** Any combination of comparisons of the variables of an expression, its own and derived ones.
      A leaf is asked about one of its variables at most. *)
  Theorem C57_answers_partial : forall s e, wf_spe s -> distinct s -> prepared (fun x => In x (symbols e)) true s -> direct e -> (forall x, In x (symbols e) -> vars s x) -> leaf_form s e ->
    exists p, fresh (logprob s e) = Ok p /\ toP p = prob s e.
  Proof.
    intros s e W Ds P De V Lf.
    destruct (ask_safe (within s) (within_closed ident s Ds) (fun _ => True) (fun _ => True) (fun _ => True) (fun x => In x (symbols e)) s e true (within_self s) W P De ltac:(intros x Hx; split; auto) Lf ltac:(discriminate) Memo) as (p & Ep); [repeat split; constructor|].
    exists p. split; auto. apply (C22_logprob io po fuel dlaw ident nominal s e p); auto; [eapply prepared_atoms; eauto|now apply (direct_askable dlaw nominal cuts points)].
  Qed.
  (** conjunctions; the supports may be closed if the functions are one-to-one *)
  Theorem C57_conjunctions_partial : forall s e, wf_spe s -> distinct s -> prepared (fun x => In x (symbols e)) false s -> direct e -> conjunctive e -> (forall x, In x (symbols e) -> vars s x) -> leaf_form s e ->
    exists p, fresh (logprob s e) = Ok p /\ toP p = prob s e.
  Proof.
    intros s e W Ds P De Cj V Lf.
    destruct (ask_safe (within s) (within_closed ident s Ds) (fun _ => True) (fun _ => True) (fun _ => True) (fun x => In x (symbols e)) s e false (within_self s) W P De ltac:(intros x Hx; split; auto) Lf ltac:(auto) Memo) as (p & Ep); [repeat split; constructor|].
    exists p. split; auto. apply (C22_logprob io po fuel dlaw ident nominal s e p); auto; [eapply prepared_atoms; eauto|now apply (direct_askable dlaw nominal cuts points)].
  Qed.
  (** the same after any history of queries through the same memo table *)
  Theorem C57_after_partial : forall U h s e, closed ident U -> Forall (fine dlaw nominal envof U) h -> U s -> wf_spe s -> prepared (fun x => In x (symbols e)) true s -> direct e -> (forall x, In x (symbols e) -> vars s x) -> leaf_form s e ->
    exists p, fst (logprob s e (table io so po fuel ident hash h)) = Ok p /\ toP p = prob s e.
  Proof.
    intros U h s e Uc Fh Us W P De V Lf. pose proof (table_valid io so po fuel dlaw Ed ident hash nominal envof U Uc h Fh) as Vt.
    destruct (ask_safe U Uc _ _ _ (fun x => In x (symbols e)) s e true Us W P De ltac:(intros x Hx; split; auto) Lf ltac:(discriminate) _ Vt) as (p & Ep). exists p. split; auto.
    apply (C30_logprob io so po fuel dlaw Ed ident hash nominal envof U Uc h s e p); auto; [eapply prepared_atoms; eauto|now apply (direct_askable dlaw nominal cuts points)].
  Qed.
End Properties.
