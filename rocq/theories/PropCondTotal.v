(** Property C25, for comparisons of variables: conditioning on an event of positive probability
    gives a result, the conditional distribution. *)
From Coq Require Import List Bool String Reals Lra Lia ZArith QArith Qreals PeanoNat FunctionalExtensionality Permutation.
From Verif Require Import Base Num Sets SetSpec SetIv SetProofs SetOr SetOps SetAlg SetBuilt
  Poly Trans TransSpec TransFacts PolyProofs InvProofs InvMain EvProofs ArithProofs
  Dnf DnfSpec DnfProofs DnfUnion PropDnf Logs Spe SpeSpec SpeFacts SpeRect LeafProofs LeafEvents LeafCond SpeCons LeafGiven MemoProofs
  NormSorts LogprobProofs LogprobTop SpeEq SimplifyProofs CondTypes CondProofs CondTop PropSpe TotalSpec TotalSets TotalSolve TotalProofs PropTotal TotalUnion TotalGrid CondLeafTotal SimplifyTotal TightUnion Diffuse CondTotal.
Import ListNotations.
Local Open Scope R_scope.

Section Clauses.
  Context {N : numsys} {S : logsys} {D : distsys N S} (io : iterorder N) (nominal : string -> bool) (cuts points : string -> R -> Prop).
  Notation spe := (spe D).
  Notation tr := (tr N).
  Notation cmps := (cmps (N:=N) nominal cuts points).
  Notation afactor := (afactor (D:=D) nominal cuts points).
  Lemma factor_afactor : forall (s : spe) (d : tr) f, cmps d -> (forall x, In x (symbols d) -> own s x) -> dnf_factor io d = Ok f -> afactor s f.
  Proof.
    intros s d f Cd V Ef. pose proof (factor_cmp io nominal cuts points d f Cd Ef) as Fc. split.
    - unfold dnf_factor in Ef. destruct d as [| | | | | | | |k t v|l|l] eqn:Ed'; try discriminate Ef; cbn [dnf_factor_with] in Ef; inv_bind Ef; try (injection Ef as <-; discriminate).
      destruct Cd as (Gd & _). apply gev_or in Gd. destruct l; [tauto|]. cbn [mapM] in Ef. inv_bind Ef. inv_bind Ef. injection Ef as <-. discriminate.
    - apply Forall_forall. intros c Hc. rewrite Forall_forall in Fc. pose proof (Fc c Hc) as Cc. split; auto. destruct (C16_keys io _ d f (proj1 Cd) Ef c Hc) as (_ & Nd & K). split; auto.
      intros (k, a) Hp. cbn [fst]. destruct Cc as (_ & Fcc). rewrite Forall_forall in Fcc. pose proof (Fcc _ Hp) as Ca. cbn [fst snd] in Ca. destruct (K k a Hp) as (_ & Kl). specialize (Kl k). rewrite (cmp_symbols nominal cuts points k a Ca) in Kl. specialize (Kl ltac:(now left)).
      apply lookup_self in Kl. destruct Kl as (_ & Kl). now apply V.
  Qed.
  (** a comparison of a variable that takes strings is with strings *)
  Lemma cmps_sorts : forall e : tr, cmps e -> event_sorts nominal e.
  Proof.
    intros e (_ & F). eapply Forall_impl; [|exact F]. intros a (x & G & k & v & -> & Fv). unfold fits in Fv. unfold sort_ok. destruct (nominal x) eqn:E.
    - right. exists k, x, v. split; auto. split; auto. destruct Fv as [->|Nv]; [now left|right]. pose proof (gev_wf _ _ _ G) as (_ & _ & K & _). destruct k; auto; [destruct K as (i & ->)|destruct K as [-> |(vs & ->)]]; destruct Nv.
    - left. destruct Fv as (Nk & _). split; [destruct k; cbn; tauto|]. intros y [<-|[]]. exact E.
  Qed.
  Lemma cmps_lit_in : forall (K : string -> Prop) (e : tr), cmps e -> (forall x, In x (symbols e) -> K x) -> Forall (lit_in nominal K) (lits e).
  Proof.
    intros K e C V. pose proof (cmps_sorts e C) as Se. destruct C as (G & F). unfold event_sorts in Se. rewrite Forall_forall in *. intros a Ha. destruct (F a Ha) as (x & Gx & k & v & -> & Fv). split; auto.
    exists x. split; [apply V, symbols_lits; eexists; split; [exact Ha|now left]|]. exists k, v. split; auto. intros ->. unfold fits in Fv. destruct (nominal x); auto. tauto.
  Qed.
End Clauses.

Section Top.
  Context {N : numsys} {S : logsys} {D : distsys N S} (io : iterorder N) (so : strorder) (po : polyoracle N) (fuel : nat).
  Context (dlaw : dist D -> (fval -> R) -> R) (Ed : eq_dist dlaw) (ident : spe D -> nat) (hash : spe D -> Z).
  Context (nominal : string -> bool) (envof : string -> tenv (N:=N)).
  Notation spe := (spe D).
  Notation tr := (tr N).
  Notation den := (den dlaw).
  Notation wf_spe := (wf_spe dlaw).
  Notation wf_leaf := (wf_leaf dlaw).
  Notation typed := (typed (D:=D) nominal envof).
  Context (Hf : (1 <= fuel)%nat).
  Context (U : spe -> Prop) (Uc : closed ident U).
  Context (C2 : list ((nat * assignment (N:=N)) * (nat * lg S)) -> Prop) (C3 : list ((nat * assignment (N:=N)) * spe) -> Prop).
  Notation valid := (valid dlaw ident U (Forall (centry_ok dlaw ident nominal envof U)) C2 C3).
  Notation safe := (safe valid).
  Notation sat := (MemoProofs.sat valid).
  Section Direct.
  Context (cuts points : string -> R -> Prop).
  Notation cmps := (cmps (N:=N) nominal cuts points).
  Notation afactor := (afactor (D:=D) nominal cuts points).
  Notation open_leaves := (open_leaves (D:=D) nominal cuts).
  Notation steady := (steady (D:=D) cuts points).
  Notation ready := (ready (D:=D) cuts points).

  Lemma den_same : forall s F G w, wf_spe s -> (forall w, den s (ind (fun a => ~ (F a <-> G a))) w = 0) -> den s (ind F) w = den s (ind G) w.
  Proof.
    intros s F G w W Z. apply (den_as dlaw s (fun a => ~ (F a <-> G a))); auto with bnd. intros a Ha. apply ind_eq. destruct (dec (F a <-> G a)); tauto.
  Qed.
  Lemma disjoint_factor : forall (d : tr) (f : factor (N:=N)), disjoint_clauses d -> Forall2 (fun a c => forall w, clause_holds c w <-> holds a w) (clauses d) f -> disjoint f.
  Proof.
    intros d f Dj Fc. unfold disjoint_clauses in Dj. unfold disjoint. induction Fc as [|a c la lc H F IH]; [constructor|]. inversion Dj as [|? ? Na Dj']; subst. constructor; auto.
    clear -H F Na. induction F as [|b c' la lc H' F IH]; constructor; inversion Na as [|? ? Nb Na']; subst; auto. intros w K1 K2. apply (Nb w). split; [now apply H|now apply H'].
  Qed.
  (** the last two steps of condition *)
  Lemma factored_safe : forall s many (d : tr), U s -> wf_spe s -> typed s -> open_leaves many s -> ready (holds d) many s -> cmps d -> is_dnf d -> (forall x, In x (symbols d) -> own s x) -> disjoint_clauses d ->
    (many = false -> one_clause d) -> (forall w, 0 < den s (ind (holds d)) w) ->
    safe (mbind (lift (dnf_factor io d)) (fun f => condition_mem io so po fuel ident hash s f)).
  Proof.
    intros s many d Us W T O St Cd Dd V Dj One Pos.
    destruct (C16_total io d (proj1 Cd) Dd (cmps_on_vars nominal cuts points d Cd)) as (f & Ef).
    apply safe_bind with (P := fun f' => f' = f); [apply sat_lift; congruence|apply safe_lift; eauto|]. intros f' ->.
    destruct (factor_good io nominal (own s) d f (proj1 Cd) (cmps_lit_in nominal cuts points (own s) d Cd V) Ef) as (_ & Ff & _ & Fc).
    apply (condition_mem_safe io so po fuel dlaw Ed ident hash nominal envof cuts points Hf U Uc C2 C3 s Us W T many); auto.
    - revert St. apply ready_iff. intros w. symmetry. apply Ff.
    - now apply (factor_afactor io nominal cuts points s d).
    - now apply (disjoint_factor d).
    - intros Em. apply (factor_one io d f); auto.
    - intros w. rewrite (ind_iff _ (factor_holds f) (holds d)); auto.
  Qed.
  Lemma leaf_condition_safe : forall s e many, U s -> wf_spe s -> open_leaves many s -> ready (holds e) many s -> cmps e -> (forall x, In x (symbols e) -> own s x) -> leaf_form s e ->
    (many = false -> conjunctive e) -> is_leaf s = true -> (forall w, 0 < den s (ind (holds e)) w) -> safe (condition io so po fuel ident hash s e).
  Proof.
    intros s e many Us W O St De V Lf Cj Il Pos. unfold condition. rewrite Il.
    assert (Wl : wf_leaf s) by (apply wf_leaf_spe; auto). pose proof (leaf_flat dlaw nominal cuts points s e Wl (open_weaken nominal cuts s many O) De Il Lf V) as Fl.
    destruct (leaf_condition_total io po fuel dlaw nominal cuts points s many e (fun _ => FNum 0) Hf Wl O St Fl) as (t & Et); auto.
    { intros Em. destruct (Lf Il) as [B|(l & -> & _)]; auto. destruct (Cj Em). }
    unfold leaf_condition in Et. inv_bind Et. rewrite E. apply safe_bind with (P := fun e' => e' = r); [apply sat_lift; congruence|apply safe_lift; eauto|]. intros e' ->. apply memo_condition_safe. apply safe_lift. eauto.
  Qed.
  (** conjunctions *)
  Lemma conjunction_condition_safe : forall s e, U s -> wf_spe s -> typed s -> open_leaves false s -> steady s -> direct nominal cuts points e -> conjunctive e -> (forall x, In x (symbols e) -> own s x) -> leaf_form s e ->
    (forall w, 0 < den s (ind (holds e)) w) -> safe (condition io so po fuel ident hash s e).
  Proof.
    intros s e Us W T O St De Cj V Lf Pos. destruct (is_leaf s) eqn:Il; [apply (leaf_condition_safe s e false); auto; [now apply steady_inside|now apply direct_cmps]|]. unfold condition. rewrite Il. apply direct_cmps in De.
    destruct (normalize_total io po fuel nominal cuts points e De) as (o & En & Ko).
    apply safe_bind with (P := fun o' => o' = o); [apply sat_lift; congruence|apply safe_lift; eauto|]. intros o' ->.
    assert (Reg : forall w, regular true e w) by (intros w; apply on_vars_regular; [apply De|now apply (cmps_on_vars nominal cuts points)]).
    destruct o as [d|].
    - destruct (dnf_normalize_ok io po fuel e _ (proj1 De) En) as (Gd & Dd & _ & Hd). pose proof (Ko d eq_refl) as Cd. pose proof (normalize_one io po fuel nominal cuts points e d De Cj En) as Od.
      assert (En0 : nonzero_clauses io po fuel ident s d = mret d) by (destruct Od as [B|(l & ->)]; [destruct d; try discriminate B; reflexivity|reflexivity]). rewrite En0.
      apply safe_bind with (P := fun d' => d' = d); [now apply sat_ret|apply safe_ret|]. intros d' ->.
      assert (Eu : disjoint_union io po fuel fuel d = Ok d) by (destruct Od as [B|(l & ->)]; [destruct d; try discriminate B; destruct fuel; reflexivity|destruct fuel; reflexivity]).
      apply safe_bind with (P := fun d' => d' = d); [apply sat_lift; congruence|apply safe_lift; eauto|]. intros d' ->.
      apply (factored_safe s false); auto.
      + now apply steady_inside.
      + intros x Hx. apply V. pose proof (normalize_kinds io po fuel nominal e d (proj1 De) (direct_kinds nominal cuts points e De) En) as Lk. exact (in_symbols nominal _ _ Lk x Hx).
      + unfold disjoint_clauses. destruct Od as [B|(l & ->)]; [destruct d; try discriminate B|]; repeat constructor.
      + intros w. rewrite (ind_iff _ (holds d) (holds e)); auto. intros a. apply (Hd a true (Reg a)).
    - exfalso. pose proof (dnf_normalize_ok io po fuel e None (proj1 De) En) as Nh. specialize (Pos (fun _ => FNum 0)). rewrite (law_ext (I:=fun g => den s g (fun _ => FNum 0)) _ (fun _ => 0)) in Pos.
      + rewrite (law_const (den_kernel dlaw s W (fun _ => FNum 0))) in Pos. lra.
      + intros a. apply ind_false. apply (Nh a true (Reg a)).
  Qed.
  End Direct.

  (** ** Combinations with | *)
  Context (cuts : string -> R -> Prop).
  Notation none := (fun (_ : string) (_ : R) => False).
  Notation open_leaves := (open_leaves (D:=D) nominal cuts).
  Notation steady := (steady (D:=D) cuts none).
  (** the numbers that events name, and the tests that decide them *)
  Context (marks : string -> R -> Prop) (probes : list (asg -> Prop)).
  Context (Marked : forall x r, nominal x = false -> marks x r -> In (is_below x r) probes /\ In (is_at x r) probes) (Cut : forall x r, marks x r -> cuts x r).
  Notation kept := (kept nominal marks probes).
  Notation normal := (normal nominal marks probes).
  Lemma own_cmps : forall d : tr, kept d -> cmps nominal cuts none d.
  Proof.
    intros d K. destruct (kept_cmps nominal marks probes d K) as (G & F). split; auto. eapply Forall_impl; [|exact F].
    intros a (x & Ga & k & v & -> & H). exists x. split; auto. exists k, v. split; auto. unfold fits in *. destruct (nominal x); auto. destruct H as (A & B & C & E1 & E2). split; auto. split; auto. split; auto. split.
    - intros i Hi r Hr. apply Cut. exact (E1 i Hi r Hr).
    - intros vs y r Hv Hy Er. destruct (E2 vs y r Hv Hy Er) as [H|[]]. left. now apply Cut.
  Qed.
  Lemma nonzero_safe : forall s (d : tr), U s -> wf_spe s -> typed s -> open_leaves true s -> normal d -> (forall x, In x (symbols d) -> own s x) ->
    (forall w, 0 < den s (ind (holds d)) w) -> safe (nonzero_clauses io po fuel ident s d) /\ sat (nonzero_clauses io po fuel ident s d) (fun d' => (normal d' /\ forall x, In x (symbols d') -> own s x) /\ Forall (fun c => forall w, 0 < den s (ind (holds c)) w) (clauses d')).
  Proof.
    intros s d Us W T O (Kd & Dd & Lv) V Pos. unfold nonzero_clauses.
    destruct d as [| | | | | | | |k t v|l|l]; try (destruct Kd as ((_ & Kd) & _); discriminate Kd).
    - split; [apply safe_ret|apply sat_ret; split; [split; [split; auto|exact V]|repeat constructor; auto]].
    - assert (Ll : Forall (lively nominal) l) by (destruct Lv as [[B|(m & E)]|Lv]; [discriminate B|discriminate E|exact Lv]).
      pose proof (own_cmps _ Kd) as Cd. pose proof Cd as (Gd & Fd). apply gev_or in Gd. destruct Gd as (Nl & Gl). cbn [lits] in Fd. apply lits_list in Fd.
      assert (Cc : forall c, In c l -> cmps nominal cuts none c /\ is_clause c /\ (forall x, In x (symbols c) -> own s x) /\ kept c).
      { intros c Hc. destruct (dnf_clauses _ Dd) as (_ & Fc). cbn [clauses] in Fc. rewrite Forall_forall in *. split; [split; [now apply Gl|exact (Fd c Hc)]|]. split; [now apply Fc|]. split.
        - intros x Hx. apply V. apply symbols_lits in Hx. apply symbols_lits. destruct Hx as (a & Ha & Hx). exists a. split; auto. cbn [lits]. apply in_concat. exists (lits c). split; auto. now apply in_map.
        - destruct Kd as (_ & Kd). cbn [lits] in Kd. apply lits_list in Kd. rewrite Forall_forall in Kd. split; [now apply Gl|now apply Kd]. }
      assert (Tf : exists fs, mapM (dnf_factor io) l = Ok fs /\ Forall2 (fun c f => dnf_factor io c = Ok f) l fs).
      { apply mapM_total. apply Forall_forall. intros c Hc. destruct (Cc c Hc) as (C1 & I1 & _). destruct (C16_total io c (proj1 C1)) as (f & Ef); [|now apply (cmps_on_vars nominal cuts none)|eauto].
        destruct I1 as [I1|I1]; left; [now left|now right]. }
      destruct Tf as (fs & Efs & Ffs).
      assert (Gf : Forall2 (fun c f => good_factor nominal f /\ (forall w, factor_holds f w <-> holds c w) /\ afactor nominal cuts none s f) l fs).
      { eapply Forall2_imp; [|exact Ffs]. intros c f Hc _ Ef. destruct (Cc c Hc) as (C1 & _ & Vc & _). destruct (factor_good io nominal (own s) c f (proj1 C1) (cmps_lit_in nominal cuts none (own s) c C1 Vc) Ef) as (G1 & G2 & _).
        split; auto. split; auto. now apply (factor_afactor io nominal cuts none s c). }
      assert (Sp : sat (mmap (logprob_mem io po fuel ident s) fs) (Forall2 (prob_ok dlaw s) fs)).
      { apply sat_mmap. intros f Hf'. destruct (Forall2_in_r _ _ _ _ _ _ Gf Hf') as (c & _ & G1 & _). apply logprob_mem_ok with (nominal := nominal); auto. now apply (typed_atoms nominal envof). }
      assert (Pp : forall ps, Forall2 (prob_ok dlaw s) fs ps -> Forall2 (fun c p => forall w, toP p = den s (ind (holds c)) w) l ps).
      { intros ps Hps. clear -Gf Hps. revert ps Hps. induction Gf as [|c f l fs (_ & H & _) F IH]; intros ps Hps; inversion Hps as [|? p ? ps' H1 H2]; subst; constructor; auto. intros w. rewrite (H1 w). f_equal. now apply ind_iff. }
      assert (Kept : forall ps, Forall2 (prob_ok dlaw s) fs ps -> Forall (fun c => forall w, 0 < den s (ind (holds c)) w) (map fst (positive (combine l ps)))).
      { intros ps Hps. apply Pp in Hps. clear -Hps. induction Hps as [|c p l ps H F IH]; [constructor|]. unfold positive in *. cbn [combine filter snd]. destruct (lisninf p) eqn:En; cbn [negb map fst]; auto. constructor; auto.
        intros w. rewrite <- (H w). pose proof (toP_nonneg S p). destruct (Req_dec (toP p) 0) as [Z|Z]; [|lra]. apply lisninf_ok in Z. congruence. }
      assert (Nn : forall ps, Forall2 (prob_ok dlaw s) fs ps -> positive (combine l ps) <> []).
      { intros ps Hps Z. pose proof (Pp ps Hps) as Hp.
        set (w := fun _ : string => FNum 0). pose proof (nonzero_null dlaw s l ps W Hp w) as Q. rewrite Z in Q. specialize (Pos w).
        rewrite (ind_iff _ _ (holds (EOr l))) in Q; [lra|]. intros a. rewrite holds_or. split; [tauto|]. intros H. split; auto. intros (c & [] & _). }
      assert (Sub : forall (ps : list (lg S)) c, In c (map fst (positive (combine l ps))) -> In c l).
      { intros ps c Hc. apply in_map_iff in Hc. destruct Hc as ((c', p) & <- & Hc). apply filter_In in Hc. destruct Hc as (Hc & _). now apply in_combine_l in Hc. }
      assert (Eor : forall ps : list (lg S), positive (combine l ps) <> [] -> EventOr (map fst (positive (combine l ps))) = Ok (EOr (map fst (positive (combine l ps))))).
      { intros ps Np. apply EvProofs.EventOr_total; [intros K; apply map_eq_nil in K; auto|]. apply Forall_forall. intros c Hc. rewrite Forall_forall in Gl. apply Gl. now apply (Sub ps). }
      split.
      + apply safe_bind with (P := fun fs' => fs' = fs); [apply sat_lift; congruence|apply safe_lift; eauto|]. intros fs' ->.
        apply safe_bind with (P := Forall2 (prob_ok dlaw s) fs); [exact Sp| |].
        * apply safe_mmap with (P := fun _ _ => True). intros f Hf'. destruct (Forall2_in_r _ _ _ _ _ _ Gf Hf') as (c & _ & G1 & _ & A1). split.
          -- eapply sat_weaken; [apply logprob_mem_ok with (nominal := nominal); auto; now apply (typed_atoms nominal envof)|auto].
          -- apply (mem_safe io po fuel dlaw ident nominal cuts none Hf U Uc (Forall (centry_ok dlaw ident nominal envof U)) C2 C3 s Us W true O); auto. discriminate.
        * intros ps Hps. pose proof (Nn ps Hps) as Np. pose proof (Eor ps Np) as Eo. destruct (positive (combine l ps)) as [|q qs]; [tauto|]. apply safe_lift. eauto.
      + apply sat_bind with (P := fun fs' => fs' = fs); [apply sat_lift; congruence|]. intros fs' ->. eapply sat_bind; [exact Sp|]. intros ps Hps. pose proof (Nn ps Hps) as Np. pose proof (Eor ps Np) as Eo.
        assert (Nr : normal (EOr (map fst (positive (combine l ps))))).
        { assert (Nm : map fst (positive (combine l ps)) <> []) by (intros K; apply map_eq_nil in K; auto). split; [split|split].
          - refine (proj2 (EvProofs.EventOr_ok _ _ _ Eo)). apply Forall_forall. intros c Hc. rewrite Forall_forall in Gl. apply Gl. now apply (Sub ps).
          - cbn [lits]. apply lits_list, Forall_forall. intros c Hc. apply (Cc c (Sub ps c Hc)).
          - right. exists (map fst (positive (combine l ps))). split; auto. split; auto. apply Forall_forall. intros c Hc. apply (Cc c (Sub ps c Hc)).
          - right. cbn [clauses]. rewrite Forall_forall in *. intros c Hc. apply Ll. now apply (Sub ps). }
        pose proof (Kept ps Hps) as Kp. pose proof (Sub ps) as Subp. destruct (positive (combine l ps)) as [|q qs]; [tauto|]. apply sat_lift. intros d' Hd'. rewrite Eo in Hd'. injection Hd' as <-. split; [split; [exact Nr|]|exact Kp].
        intros x Hx. apply symbols_lits in Hx. destruct Hx as (a & Ha & Hx). cbn [lits] in Ha. apply in_concat in Ha. destruct Ha as (m & Hm & Ha). apply in_map_iff in Hm. destruct Hm as (c & <- & Hc).
        apply (Cc c (Subp c Hc)). apply symbols_lits. eauto.
    - split; [apply safe_ret|apply sat_ret; split; [split; [split; auto|exact V]|repeat constructor; auto]].
  Qed.
  Lemma diffuse_ready : forall (P : asg -> Prop) s, wf_spe s -> open_leaves true s -> steady s -> diffuse s -> (exists x, own s x /\ no_isolated x P) -> ready cuts none P true s.
  Proof.
    intros P. induction s as [disc x d supp cond env|x a env|x ws|l H|l H] using spe_ind'; intros W O St Df Sm; try contradiction.
    - cbn [CondTotal.ready]. split; [exact St|]. intros _ _. destruct Sm as (y & <- & Sm). exact Sm.
    - cbn [CondTotal.ready]. apply SpeFacts.All_intro. intros c Hc. apply H; auto.
      + now apply (sum_wf dlaw l W).
      + exact (SpeFacts.All_In _ _ _ _ O Hc).
      + exact (SpeFacts.All_In _ _ _ _ St Hc).
      + exact (SpeFacts.All_In _ _ _ _ Df Hc).
      + destruct Sm as (x & Ox & Sm). exists x. split; auto. exact (SpeFacts.All_In _ _ _ c Ox Hc).
  Qed.
  (** what is left of an event after the clauses of probability zero are gone has no isolated numbers *)
  Lemma diffuse_smooth : forall s (d1 d2 : tr), wf_spe s -> open_leaves true s -> diffuse s -> cmps nominal cuts none d1 -> is_dnf d1 -> Forall (lit_in nominal (own s)) (lits d1) -> (sorted nominal d1 \/ is_basic d1 = true) ->
    Forall (fun c => forall w, 0 < den s (ind (holds c)) w) (clauses d1) -> disjoint_union io po fuel fuel d1 = Ok d2 -> forall x, own s x -> no_isolated x (holds d2).
  Proof.
    intros s d1 d2 W O Df C1 D1 L1 S1 Kp H x Vx w r Hr Al. destruct (diffuse_one dlaw nominal cuts s true W O Df) as (x' & En & Vs). assert (x = x') as <- by (now apply Vs).
    destruct (disjoint_union_ok io po fuel nominal fuel d1 d2 (proj1 C1) D1 (lit_in_on_vars nominal _ _ L1) H) as ((G2 & _) & Snd & Cmp). pose proof (union_in io po fuel nominal (own s) fuel d1 d2 (proj1 C1) D1 L1 H) as L2.
    set (w' := fun y : string => if nominal y then FStr EmptyString else FNum 0).
    assert (Ag : forall (e : tr) q, gev e -> Forall (lit_in nominal (own s)) (lits e) -> (holds e (upd w x (FNum q)) <-> holds e (upd w' x (FNum q)))).
    { intros e q Ge Le. unfold holds. rewrite (teval_agree e (upd w x (FNum q)) (upd w' x (FNum q))); [tauto|apply Ge|]. intros y Hy. apply (in_symbols nominal _ _ Le), Vs in Hy. subst y. unfold upd. now rewrite String.eqb_refl. }
    assert (Sa : forall q, sorted_asg nominal (upd w' x (FNum q))).
    { intros q y. unfold upd. destruct (String.eqb_spec x y) as [<-|]; [rewrite En; reflexivity|]. unfold w'. destruct (nominal y); reflexivity. }
    assert (Same : forall q, holds d1 (upd w x (FNum q)) -> holds d2 (upd w x (FNum q))) by (intros q K; apply Ag; auto; apply Cmp; auto; apply Ag; auto; apply C1).
    apply Snd in Hr. apply holds_clauses in Hr. destruct Hr as (c & Hc & Hr). rewrite Forall_forall in Kp. destruct (dnf_clauses _ D1) as (_ & Ic). rewrite Forall_forall in Ic.
    assert (Lc : forall a, In a (lits c) -> In a (lits d1)).
    { destruct d1; try (destruct Hc as [<-|[]]; auto; fail). cbn [clauses] in Hc. cbn [lits]. intros a Ha. apply in_concat. exists (lits c). split; auto. now apply in_map. }
    assert (Gc : gev c).
    { destruct C1 as (G1 & _). destruct d1; try (destruct Hc as [<-|[]]; exact G1). apply gev_or in G1. destruct G1 as (_ & G1). rewrite Forall_forall in G1. now apply G1. }
    apply (diffuse_clause dlaw nominal cuts none s true x c w r); auto.
    - split; auto. destruct C1 as (_ & F1). rewrite Forall_forall in *. auto.
    - intros y Hy. apply symbols_lits in Hy. destruct Hy as (a & Ha & Hy). apply (in_symbols nominal _ _ L1). apply symbols_lits. eauto.
    - apply (alone_sub r (fun q => holds d2 (upd w x (FNum q)))); auto. intros q Hq. apply Same. now apply (clause_holds_event c).
  Qed.
  Lemma some_symbol : forall d : tr, cmps nominal cuts none d -> is_dnf d -> exists x, In x (symbols d).
  Proof.
    intros d Cd Dd. destruct (dnf_clauses _ Dd) as (Ne & Ic). destruct (clauses d) as [|c cs] eqn:Ec; [tauto|]. inversion Ic as [|? ? Hc _]; subst. destruct (clause_lits c (fun _ => FNum 0) Hc) as (_ & Nl). destruct (lits c) as [|a la] eqn:El; [tauto|].
    assert (Ha : In a (lits d)).
    { assert (In c (clauses d)) as Hin by (rewrite Ec; now left). destruct d; try (destruct Hin as [<-|[]]; rewrite El; now left). cbn [clauses] in Hin. cbn [lits]. apply in_concat. exists (lits c). split; [now apply in_map|]. rewrite El. now left. }
    destruct Cd as (_ & F). rewrite Forall_forall in F. destruct (F a Ha) as (x & Ca). exists x. apply symbols_lits. exists a. split; auto. rewrite (cmp_symbols nominal cuts none x a Ca). now left.
  Qed.
  Lemma kept_condition_safe : forall s e, U s -> wf_spe s -> typed s -> open_leaves true s -> steady s -> even (holds e) s -> kept e -> (forall x, In x (symbols e) -> own s x) -> leaf_form s e ->
    (2 ^ List.length probes <= fuel)%nat -> (forall w, 0 < den s (ind (holds e)) w) -> safe (condition io so po fuel ident hash s e).
  Proof.
    intros s e Us W T O St Ev Ke V Lf Hn Pos. pose proof (own_cmps e Ke) as Ce. destruct (is_leaf s) eqn:Il.
    { apply (leaf_condition_safe cuts none s e true); auto; [|discriminate]. destruct s; try discriminate Il; cbn [CondTotal.ready]; auto. } unfold condition. rewrite Il.
    destruct (normalize_kept io po fuel nominal marks probes e Ke) as (o & En & Ko).
    apply safe_bind with (P := fun o' => o' = o); [apply sat_lift; congruence|apply safe_lift; eauto|]. intros o' ->.
    destruct o as [d|].
    - destruct Ko as (Nd & Hd).
      assert (Vd : forall x, In x (symbols d) -> own s x).
      { intros x Hx. apply V. pose proof (normalize_kinds io po fuel nominal e d (proj1 Ce) (direct_kinds nominal cuts none e Ce) En) as Lk. exact (in_symbols nominal _ _ Lk x Hx). }
      assert (Pd : forall w, 0 < den s (ind (holds d)) w) by (intros w; rewrite (ind_iff _ (holds d) (holds e)); auto).
      pose proof (own_cmps d (proj1 Nd)) as Cd. pose proof (cmps_lit_in nominal cuts none (vars s) d Cd (fun x Hx => own_vars dlaw s x W (Vd x Hx))) as Ld.
      pose proof (normalize_sorts io po fuel nominal e d (proj1 Ce) (cmps_sorts nominal cuts none e Ce) En) as Sd.
      destruct (nonzero_safe s d Us W T O Nd Vd Pd) as (Sf & St1).
      pose proof (nonzero_ok io po fuel dlaw ident hash nominal envof U Uc C2 C3 s d Us W T (proj1 Cd) (proj1 (proj2 Nd)) Ld Sd) as St2.
      eapply safe_bind; [exact (sat_and _ _ _ _ _ St1 St2)|exact Sf|]. intros d1 (((N1 & O1) & Kp) & G1 & D1 & L1 & S1 & Z1).
      assert (P1 : forall w, 0 < den s (ind (holds d1)) w) by (intros w; rewrite (den_same s (holds d1) (holds d)); auto).
      destruct (disjoint_union_total io po fuel nominal marks probes Marked fuel d1 N1) as (d2 & E2 & K2).
      { right. eapply Nat.le_trans; [apply mu_bound|exact Hn]. }
      apply safe_bind with (P := fun d' => d' = d2); [apply sat_lift; congruence|apply safe_lift; eauto|]. intros d' ->.
      destruct (disjoint_union_ok io po fuel nominal fuel d1 d2 G1 D1 (lit_in_on_vars nominal _ _ L1) E2) as ((G2 & _ & D2 & Dj) & _). pose proof (own_cmps d1 (proj1 N1)) as C1. pose proof (cmps_lit_in nominal cuts none (own s) d1 C1 O1) as L1'. pose proof (union_in io po fuel nominal (own s) fuel d1 d2 G1 D1 L1' E2) as L2.
      pose proof (union_null io po fuel dlaw hash nominal envof s d1 d2 W T G1 D1 L1 S1 E2) as Z2.
      apply (factored_safe cuts none s true); auto.
      + destruct s as [| | |l|l]; try discriminate Il.
        * destruct Ev as [Lu|Df]; [now apply steady_lumpy|]. apply diffuse_ready; auto. destruct (some_symbol d1 C1 D1) as (x & Hx). exists x. split; [now apply O1|]. apply (diffuse_smooth (SumSPE l) d1); auto.
        * cbn [CondTotal.ready]. apply SpeFacts.All_intro. intros c Hc. apply steady_inside. exact (SpeFacts.All_In _ _ _ _ St Hc).
      + now apply own_cmps.
      + exact (in_symbols nominal _ _ L2).
      + discriminate.
      + intros w. rewrite (den_same s (holds d2) (holds d1)); auto.
    - exfalso. specialize (Pos (fun _ => FNum 0)). rewrite (law_ext (I:=fun g => den s g (fun _ => FNum 0)) _ (fun _ => 0)) in Pos.
      + rewrite (law_const (den_kernel dlaw s W (fun _ => FNum 0))) in Pos. lra.
      + intros a. apply ind_false. apply Ko.
  Qed.
End Top.

(** ** C25 *)
Section Properties.
  Context {N : numsys} {S : logsys} {D : distsys N S} (io : iterorder N) (so : strorder) (po : polyoracle N).
  Context (dlaw : dist D -> (fval -> R) -> R) (Ed : eq_dist dlaw) (ident : spe D -> nat) (hash : spe D -> Z).
  Context (nominal : string -> bool) (envof : string -> tenv (N:=N)).
  Notation spe := (spe D).
  Notation tr := (tr N).
  Notation prob := (prob dlaw).
  Notation wf_spe := (wf_spe dlaw).
  Notation typed := (typed (D:=D) nominal envof).
  Notation distinct := (distinct ident).
  Notation condition fuel := (condition io so po fuel ident hash).
  Notation none := (fun (_ : string) (_ : R) => False).
  Notation about s e := (forall x, In x (symbols e) -> own s x).
  Lemma prob_den : forall (s : spe) (e : tr), wf_spe s -> gev e -> about s e -> 0 < prob s e -> forall w, 0 < SpeSpec.den dlaw s (ind (holds e)) w.
  Proof.
    intros s e W G V P w. unfold SpeSpec.prob, Pr in P. rewrite (den_closed dlaw s (ind (holds e)) w w0 W); [exact P|]. intros u u' E. apply ind_eq. unfold holds. rewrite (teval_agree e u u'); [tauto|apply G|].
    intros x Hx. apply E. intros K. apply K. apply (own_vars dlaw); auto.
  Qed.
  Lemma direct_conditionable : forall cuts points (s : spe) (e : tr), wf_spe s -> direct nominal cuts points e -> about s e -> conditionable dlaw nominal s e.
  Proof.
    intros cuts points s e W De V. destruct (direct_askable dlaw nominal cuts points s e W De) as (G & Rg & _). split; auto. split; auto. split; [apply (cmps_sorts nominal cuts points); now apply direct_cmps|]. intros y Hy. apply (own_vars dlaw); auto.
  Qed.
  (** any combination of comparisons with & and |: with enough rounds of the loop that makes the
      clauses disjoint, condition returns the conditional distribution *)
  Theorem C25_positive_partial : forall cuts (s : spe) (e : tr), wf_spe s -> typed s -> distinct s -> open_leaves nominal cuts true s -> steady cuts none s -> even (holds e) s ->
    direct nominal cuts none e -> about s e -> leaf_form s e -> 0 < prob s e ->
    exists rounds, forall fuel, (rounds <= fuel)%nat -> exists t, fresh (condition fuel s e) = Ok t /\ wf_spe t /\ (forall x, vars t x <-> vars s x) /\ given dlaw s (holds e) t.
  Proof.
    intros cuts s e W T Ds O St Ev De V Lf P. exists (1 + 2 ^ List.length (etests e))%nat. intros fuel Hn.
    assert (Cut : forall x r, ecuts e x r -> cuts x r) by (intros x r H; destruct (grid_named nominal cuts none e x r De H) as [K|[]]; exact K).
    destruct (kept_condition_safe io so po fuel dlaw Ed ident hash nominal envof ltac:(lia) (within s) (within_closed ident s Ds) (fun _ => True) (fun _ => True) cuts (ecuts e) (etests e) (fun x r _ H => grid_tests e x r H) Cut
      s e (within_self s) W T O St Ev (direct_kept nominal cuts none e De) V Lf ltac:(lia)
      (prob_den s e W (proj1 De) V P) Memo) as (t & Et); [repeat split; constructor|].
    exists t. split; auto. destruct (C24_given io so po fuel dlaw Ed ident hash nominal envof s e t W T Ds (direct_conditionable cuts none s e W De V) Et) as (A & _ & B & C). auto.
  Qed.
  (** conjunctions of comparisons, whatever the supports, with any number of rounds *)
  Theorem C25_conjunctions_partial : forall cuts points fuel (s : spe) (e : tr), (1 <= fuel)%nat -> wf_spe s -> typed s -> distinct s -> open_leaves nominal cuts false s -> steady cuts points s ->
    direct nominal cuts points e -> conjunctive e -> about s e -> leaf_form s e -> 0 < prob s e ->
    exists t, fresh (condition fuel s e) = Ok t /\ wf_spe t /\ (forall x, vars t x <-> vars s x) /\ given dlaw s (holds e) t.
  Proof.
    intros cuts points fuel s e Hf W T Ds O St De Cj V Lf P.
    destruct (conjunction_condition_safe io so po fuel dlaw Ed ident hash nominal envof Hf (within s) (within_closed ident s Ds) (fun _ => True) (fun _ => True) cuts points s e (within_self s) W T O St De Cj V Lf
      (prob_den s e W (proj1 De) V P) Memo) as (t & Et); [repeat split; constructor|].
    exists t. split; auto. destruct (C24_given io so po fuel dlaw Ed ident hash nominal envof s e t W T Ds (direct_conditionable cuts points s e W De V) Et) as (A & _ & B & C). auto.
  Qed.
  (** so condition returns exactly when the probability is not zero *)
  Theorem C25_exactly_partial : forall cuts points fuel (s : spe) (e : tr), (1 <= fuel)%nat -> wf_spe s -> typed s -> distinct s -> open_leaves nominal cuts false s -> steady cuts points s ->
    direct nominal cuts points e -> conjunctive e -> about s e -> leaf_form s e ->
    ((exists t, fresh (condition fuel s e) = Ok t) <-> prob s e <> 0).
  Proof.
    intros cuts points fuel s e Hf W T Ds O St De Cj V Lf. split.
    - intros (t & Et) Z. destruct (C25_null_partial io so po fuel dlaw Ed ident hash nominal envof s e W T Ds (direct_conditionable cuts points s e W De V) Z) as (x & Ex). congruence.
    - intros Nz. destruct (C25_conjunctions_partial cuts points fuel s e) as (t & Et & _); eauto. assert (0 <= prob s e) by apply (law_01 (den_kernel dlaw s W w0)). lra.
  Qed.
  (** the same after any history of queries through the same memo table *)
  Theorem C25_after_partial : forall cuts points fuel U h (s : spe) (e : tr), (1 <= fuel)%nat -> closed ident U -> Forall (fine dlaw nominal envof U) h -> U s -> wf_spe s -> typed s -> open_leaves nominal cuts false s -> steady cuts points s ->
    direct nominal cuts points e -> conjunctive e -> about s e -> leaf_form s e -> 0 < prob s e ->
    exists t, fst (condition fuel s e (table io so po fuel ident hash h)) = Ok t /\ given dlaw s (holds e) t.
  Proof.
    intros cuts points fuel U h s e Hf Uc Fh Us W T O St De Cj V Lf P. pose proof (table_valid io so po fuel dlaw Ed ident hash nominal envof U Uc h Fh) as Vt.
    destruct (conjunction_condition_safe io so po fuel dlaw Ed ident hash nominal envof Hf U Uc _ _ cuts points s e Us W T O St De Cj V Lf (prob_den s e W (proj1 De) V P) _ Vt) as (t & Et).
    exists t. split; auto. apply (C30_condition io so po fuel dlaw Ed ident hash nominal envof U Uc h s e t); auto. now apply (direct_conditionable cuts points).
  Qed.
End Properties.
