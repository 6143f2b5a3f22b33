(** The events of a branching on comparisons can be made, and the block of branches gives a result
    when the branches do. *)
From Coq Require Import List Bool String Reals Lra Lia ZArith QArith Qreals PeanoNat FunctionalExtensionality Permutation Classical.
From Verif Require Import Base Num Sets SetSpec SetIv SetProofs SetOr SetOps SetAlg SetBuilt
  Poly Trans TransSpec TransFacts PolyProofs InvProofs InvMain EvProofs ArithProofs
  Dnf DnfSpec DnfProofs DnfUnion PropDnf Logs Spe SpeSpec SpeFacts SpeRect LeafProofs LeafEvents LeafCond SpeCons LeafGiven MemoProofs
  NormSorts LogprobProofs LogprobTop SpeEq SimplifyProofs CondTypes CondProofs CondTop PropSpe SpeOps OpsProofs BuildProofs Prog ProgSpec ProgEvents ProgProofs
  TotalSpec TotalEnds TotalSets TotalSolve TotalProofs PropTotal TotalUnion TotalGrid CondLeafTotal SimplifyTotal TightUnion Diffuse CondTotal PropCondTotal.
Import ListNotations.
Local Open Scope R_scope.

(** ** The events of IfElse *)
Section Events.
  Context {N : numsys} (io : iterorder N) (po : polyoracle N) (fuel : nat) (nominal : string -> bool).
  Context (marks : string -> R -> Prop) (probes : list (asg -> Prop)).
  Context (Marked : forall x r, nominal x = false -> marks x r -> In (is_below x r) probes /\ In (is_at x r) probes).
  Notation tr := (tr N).
  Notation kept := (kept (N:=N) nominal marks probes).
  Notation kept1 := (kept1 (N:=N) nominal marks probes).
  Lemma not_kept : forall e, kept e -> Forall nonvoid (lits e) -> exists n, ev_not io e = Ok n /\ kept n.
  Proof.
    induction e using tr_ind'; intros (G & F) Nv; try (destruct G as (_ & G); discriminate G).
    - cbn [lits] in F, Nv. inversion F; inversion Nv; subst. now apply (not_lit_kept io nominal marks probes Marked).
    - cbn [ev_not]. apply gev_or in G. destruct G as (Ne & G). cbn [lits] in F, Nv. apply lits_list in F, Nv. rewrite Forall_forall in H, G, F, Nv.
      destruct (mapM_ok _ _ (ev_not io) (fun _ n => kept n) l) as (ns & -> & Fn); [intros a Ha; apply H; auto; split; auto|]. cbn [bind].
      apply (reduce_kept nominal marks probes (ev_and io)); [apply (and_kept io nominal marks probes)| |].
      + intros ->. destruct l; [tauto|inversion Fn].
      + clear -Fn. induction Fn; auto.
    - cbn [ev_not]. apply gev_and in G. destruct G as (Ne & G). cbn [lits] in F, Nv. apply lits_list in F, Nv. rewrite Forall_forall in H, G, F, Nv.
      destruct (mapM_ok _ _ (ev_not io) (fun _ n => kept n) l) as (ns & -> & Fn); [intros a Ha; apply H; auto; split; auto|]. cbn [bind].
      apply (reduce_kept nominal marks probes (ev_or io)); [apply (or_kept io nominal marks probes)| |].
      + intros ->. destruct l; [tauto|inversion Fn].
      + clear -Fn. induction Fn; auto.
  Qed.
  (** *** The variables of the events *)
  Context (V : string -> Prop).
  Definition inV (l : tr) : Prop := forall x, In x (symbols l) -> V x.
  Lemma inV_lits : forall e : tr, inV e <-> Forall inV (lits e).
  Proof.
    intros e. split.
    - intros H. apply Forall_forall. intros l Hl x Hx. apply H. apply symbols_lits. eauto.
    - intros F x Hx. apply symbols_lits in Hx. destruct Hx as (l & Hl & Hx). rewrite Forall_forall in F. exact (F l Hl x Hx).
  Qed.
  Lemma inV_merge : forall (s : tr) k v r x, inV (EBasic k s v) -> event_of_set s r = Some x -> inV x.
  Proof. intros s k v r x H Ex. destruct (event_of_set_shape _ _ _ Ex) as (k' & -> & _). exact H. Qed.
  Lemma inV_and : forall a b c : tr, ev_and io a b = Ok c -> Forall inV (lits a) -> Forall inV (lits b) -> Forall inV (lits c).
  Proof. intros a b c H. apply (ev_and_lits io inV a b c H). intros k s v j t u r x H1 _ _ _. now apply inV_merge with (k := k) (v := v). Qed.
  Lemma inV_or : forall a b c : tr, ev_or io a b = Ok c -> Forall inV (lits a) -> Forall inV (lits b) -> Forall inV (lits c).
  Proof. intros a b c H. apply (ev_or_lits io inV a b c H). intros k s v j t u r x H1 _ _ _. now apply inV_merge with (k := k) (v := v). Qed.
  Lemma inV_not : forall e n : tr, ev_not io e = Ok n -> Forall inV (lits e) -> Forall inV (lits n).
  Proof.
    induction e using tr_ind'; intros n H' F; cbn [ev_not] in H'; try discriminate.
    - apply inv_basic_kind in H'. cbn [lits] in F. inversion F as [|? ? F1 _]; subst. eapply Forall_impl; [|exact H']. intros l (j & u & -> & _). exact F1.
    - inv_bind H'. cbn [lits] in F. apply lits_list in F. apply mapM_Forall2 in E.
      eapply (reduce_lits (ev_and io)); [|exact H'|]; [intros a b c; apply inV_and|]. rewrite Forall_forall in H, F. apply Forall_forall. intros y Hy. destruct (ArithProofs.Forall2_in_r _ _ _ _ _ _ E Hy) as (x & Hx & Ex). apply (H x); auto.
    - inv_bind H'. cbn [lits] in F. apply lits_list in F. apply mapM_Forall2 in E.
      eapply (reduce_lits (ev_or io)); [|exact H'|]; [intros a b c; apply inV_or|]. rewrite Forall_forall in H, F. apply Forall_forall. intros y Hy. destruct (ArithProofs.Forall2_in_r _ _ _ _ _ _ E Hy) as (x & Hx & Ex). apply (H x); auto.
  Qed.
  Definition keptV (e : tr) : Prop := kept e /\ Forall inV (lits e).
  Definition okg (e : tr) : Prop := keptV e /\ Forall nonvoid (lits e).
  Lemma cascade_okg : forall (e : tr) o, keptV e -> Forall okg o -> exists c, cascade io (e, o) = Ok c /\ keptV c.
  Proof.
    intros e o Ke F. unfold cascade. cbn [fst snd]. revert e Ke. induction F as [|c o ((Kc & Ic) & Nc) F IH]; intros a Ka; cbn [foldM]; [eauto|].
    destruct (not_kept c Kc Nc) as (n & En & Kn). rewrite En. cbn [bind]. destruct (and_kept io nominal marks probes a n (proj1 Ka) Kn) as (d & Ed' & Kd). rewrite Ed'. cbn [bind]. apply IH. split; auto.
    apply (inV_and a n d Ed'); [apply Ka|]. now apply (inV_not c n).
  Qed.
  Lemma first_events_total : forall es seen, Forall okg seen -> Forall okg es -> exists ds, first_events io seen (map Some es) = Ok ds /\ Forall keptV ds.
  Proof.
    intros es seen Fs Fe. revert seen Fs. induction Fe as [|e es (Ke & Ne) Fe IH]; intros seen Fs; cbn [map first_events]; [eauto|].
    destruct (cascade_okg e seen Ke Fs) as (c & -> & Kc). cbn [bind]. destruct (IH (seen ++ [e])) as (ds & -> & Kd); [apply Forall_app; split; auto; constructor; [split; auto|constructor]|]. cbn [bind]. eauto.
  Qed.
  Lemma or_nonvoid : forall a b e : tr, gev a -> gev b -> Forall nonvoid (lits a) -> Forall nonvoid (lits b) -> ev_or io a b = Ok e -> Forall nonvoid (lits e).
  Proof.
    intros a b e Ga Gb Na Nb E. assert (K : Forall (fun l => gev l /\ nonvoid l) (lits e)); [|eapply Forall_impl; [|exact K]; intros x (_ & Kx); exact Kx].
    assert (Z : forall e : tr, gev e -> Forall nonvoid (lits e) -> Forall (fun l => gev l /\ nonvoid l) (lits e)) by (intros e' Ge Fe; pose proof (gev_lits _ Ge) as Gl; rewrite Forall_forall in *; intros x Hx; split; auto; apply (Gl x Hx)).
    apply (void_or io a b e E); auto.
  Qed.
  Lemma reduce_okg : forall es, es <> [] -> Forall okg es -> exists u, reduceM (ev_or io) es = Ok u /\ okg u.
  Proof.
    intros [|a l] Ne F; [tauto|]. cbn [reduceM]. inversion F as [|? ? Ka Fl]; subst. clear F Ne. revert a Ka. induction Fl as [|b l ((Kb & Ib) & Nb) Fl IH]; intros a ((Ka & Ia) & Na); cbn [foldM]; [exists a; split; [reflexivity|repeat split; auto; apply Ka]|].
    destruct (or_kept io nominal marks probes a b Ka Kb) as (c & Ec & Kc). rewrite Ec. cbn [bind]. apply IH. split; [split; auto; now apply (inV_or a b)|]. apply (or_nonvoid a b); auto; [apply Ka|apply Kb].
  Qed.
  (** an event of a branch: kept, with variables in V, and normalised from such an event *)
  Definition normal_o (o : option tr) : Prop := match o with Some d => kept d /\ exists e, keptV e /\ dnf_normalize io po fuel e = Ok (Some d) | None => True end.
  (** the conditions are events, the last one may be True *)
  Definition chain (es : list tr) (conditions : list (option tr)) : Prop := es <> [] /\ (conditions = map Some es \/ conditions = map Some es ++ [None]).
  Lemma somes_map : forall A (l : list A), somes (map Some l) = l.
  Proof. induction l as [|a l IH]; simpl; [auto|]. f_equal. exact IH. Qed.
  Lemma if_events_total : forall es conditions, chain es conditions -> Forall okg es -> exists evs, if_events io po fuel conditions = Ok evs /\ Forall normal_o evs.
  Proof.
    intros es cs (Ne & Hc) F. unfold if_events.
    assert (K : exists ds, match rev cs with [] => Raise IndexError | None :: front => do es <- first_events io [] (rev front); do u <- reduceM (ev_or io) (somes (rev front)); do n <- ev_not io u; Ok (es ++ [n]) | _ => first_events io [] cs end = Ok ds /\ Forall keptV ds).
    { destruct (first_events_total es [] ltac:(constructor) F) as (ds & Ef & Fd). destruct Hc as [->| ->].
      - destruct (rev (map Some es)) as [|o l] eqn:Er.
        + exfalso. apply Ne. apply (map_eq_nil (@Some tr)). rewrite <- (rev_involutive (map Some es)), Er. reflexivity.
        + destruct o as [e|]; [eauto|]. exfalso. assert (Hn : In None (map (@Some tr) es)) by (rewrite in_rev, Er; now left). apply in_map_iff in Hn. destruct Hn as (x & Hx & _). discriminate.
      - rewrite rev_app_distr. cbn [rev app]. rewrite rev_involutive, somes_map, Ef. cbn [bind]. destruct (reduce_okg es Ne F) as (u & -> & (Ku & Iu) & Nu). cbn [bind]. destruct (not_kept u Ku Nu) as (n & En & Kn). rewrite En. cbn [bind]. eexists. split; [reflexivity|]. apply Forall_app. split; auto. constructor; [|constructor]. split; auto. now apply (inV_not u n). }
    destruct K as (ds & -> & Fd). cbn [bind].
    destruct (mapM_ok _ _ (dnf_normalize io po fuel) (fun _ o => normal_o o) ds) as (evs & E & F2).
    - intros e He. rewrite Forall_forall in Fd. destruct (normalize_kept io po fuel nominal marks probes e (proj1 (Fd e He))) as (o & Eo & Ko). exists o. split; auto. destruct o as [d|]; [|exact Logic.I]. split; [apply Ko|]. exists e. split; auto.
    - exists evs. split; auto. clear -F2. induction F2; auto.
  Qed.

  (** *** One variable: a basic event or a disjunction of them *)
  Fixpoint level (e : tr) : Prop := match e with EBasic _ _ _ => True | EOr l => All level l | _ => False end.
  Lemma or_level : forall a b c : tr, level a -> level b -> ev_or io a b = Ok c -> level c.
  Proof.
    intros a b c La Lb H. destruct a as [| | | | | | | |k s v|l|l]; try contradiction; destruct b as [| | | | | | | |j t u|m|m]; try contradiction; cbn [ev_or] in H.
    - destruct (teqb t s).
      + inv_bind H. destruct (event_of_set s r) as [y|] eqn:Ey; [|apply EventOr_shape in H; subst c; cbn; auto]. injection H as <-. destruct (event_of_set_shape _ _ _ Ey) as (k' & -> & _). exact Logic.I.
      + apply EventOr_shape in H. subst c. cbn. auto.
    - apply EventOr_shape in H. subst c. cbn [level All]. split; auto.
    - apply EventOr_shape in H. subst c. cbn [level]. apply All_app; cbn; auto.
    - apply EventOr_shape in H. subst c. cbn [level]. apply All_app; auto.
  Qed.
  Lemma reduce_level : forall l (c : tr), Forall level l -> reduceM (ev_or io) l = Ok c -> level c.
  Proof.
    intros [|a l] c F H; cbn [reduceM] in H; [discriminate|]. inversion F as [|? ? Ca Fl]; subst. clear F. revert a Ca H. induction Fl as [|b l Cb Fl IH]; intros a Ca H; cbn [foldM] in H; [injection H as <-; auto|].
    inv_bind H. apply (IH r); auto. now apply (or_level a b).
  Qed.
  Lemma level_list : forall e : tr, level e -> Forall (fun m => exists b, m = [b] /\ is_basic b = true) (to_dnf_list e).
  Proof.
    induction e using tr_ind'; intros L; try contradiction.
    - cbn [to_dnf_list]. constructor; [|constructor]. eexists. split; reflexivity.
    - cbn [to_dnf_list]. cbn [level] in L. induction H as [|a l Ha H IH]; cbn [map List.concat]; [constructor|]. destruct L as (L1 & L2). apply Forall_app. auto.
  Qed.
  Lemma level_dnf : forall e d : tr, level e -> to_dnf e = Ok d -> is_basic d = true \/ exists l, d = EOr l /\ Forall (fun a => is_basic a = true) l.
  Proof.
    intros e d L H. unfold to_dnf in H. inv_bind H. apply mapM_Forall2 in E. pose proof (level_list e L) as Fl.
    assert (Fb : Forall (fun a => is_basic a = true) r).
    { clear -E Fl. induction E as [|m a ms l Hm E IH]; constructor; inversion Fl as [|? ? (b & -> & Hb) Fl']; subst; auto. cbn in Hm. injection Hm as <-. exact Hb. }
    unfold simplify_event in H. destruct r as [|a [|b r]].
    - apply EventOr_shape in H. right. eauto.
    - injection H as <-. left. now inversion Fb.
    - apply EventOr_shape in H. right. eauto.
  Qed.
  Lemma normalize_level : forall e d x, kept e -> (forall y, In y (symbols e) -> y = x) -> dnf_normalize io po fuel e = Ok (Some d) -> is_basic d = true \/ exists l, d = EOr l /\ Forall (fun a => is_basic a = true) l.
  Proof.
    intros e d x K Sx Eo. destruct (dnf_normalize_cases io po fuel e) as [(k & y & v & -> & E)|E]; rewrite E in Eo; clear E; [injection Eo as <-; left; reflexivity|].
    unfold normalize_general in Eo. inv_bind Eo. rename r into d0. destruct (to_dnf_kept nominal marks probes e d0 K E) as (K0 & D0). inv_bind Eo. rename r into f, E0 into Ef. inv_bind Eo. rename r into sols, E0 into Es.
    destruct (filter all_nonempty sols) as [|s0 sl] eqn:En; [discriminate|]. rewrite <- En in Eo. clear s0 sl En.
    inv_bind Eo. rename r into cs, E0 into Ec. inv_bind Eo. rename r into g, E0 into Eg. inv_bind Eo. injection Eo as ->. rename E0 into Ed.
    apply (level_dnf g d); auto. apply (reduce_level cs); auto. clear Eg Ed g d. apply mapM_Forall2 in Ec.
    pose proof (solutions_ok io po fuel d0 f sols (proj1 K0) Ef Es) as So.
    assert (Cm : Forall (fun c => csol nominal marks no_points c) sols).
    { destruct (solutions_total io po fuel nominal marks d0 (kept_cmps nominal marks probes d0 K0) D0) as (f' & s' & Ef' & Es' & Fs). rewrite Ef in Ef'. injection Ef' as <-. rewrite Es in Es'. injection Es' as <-. clear -Fs. induction Fs as [|? ? ? ? (Cs & _) Fs IH]; constructor; auto. }
    assert (Sy : forall y, In y (symbols d0) -> y = x).
    { intros y Hy. apply Sx. apply symbols_lits in Hy. destruct Hy as (l & H1 & H2). apply symbols_lits. exists l. split; auto. apply (to_dnf_lits e d0 l (proj1 K) E H1). }
    apply Forall_forall. intros c Hc. destruct (ArithProofs.Forall2_in_r _ _ _ _ _ _ Ec Hc) as (s & Hs & E'). apply unseen_incl in Hs. apply filter_In in Hs. destruct Hs as (Hs & An).
    destruct (ArithProofs.Forall2_in_r _ _ _ _ _ _ So Hs) as (a & _ & _ & Ks & Nd & _). rewrite Forall_forall in Cm. destruct (Cm s Hs) as (Ns & Fs).
    destruct s as [|(y, v) [|(z, u) s]]; [tauto| |].
    - unfold conj_of in E'. cbn [mapM fst snd] in E'. inversion Fs as [|? ? (k & Ck) _]; subst. cbn [fst snd] in Ck. unfold all_nonempty in An. cbn [forallb snd] in An.
      rewrite (t_in_cmp io nominal marks no_points y k v Ck) in E'; [|intros ->; discriminate An]. cbn in E'. injection E' as <-. exact Logic.I.
    - exfalso. cbn [map fst] in Nd, Ks. inversion Nd as [|? ? N1 _]; subst. apply N1. left. transitivity x; [|symmetry]; apply Sy; apply Ks; simpl; auto.
  Qed.
End Events.

(** ** Simplification of a sum whose terms are leaves, or whose terms are products *)
Section Simplify.
  Context {N : numsys} {S : logsys} {D : distsys N S} (dlaw : dist D -> (fval -> R) -> R) (Ed : eq_dist dlaw).
  Context (hash : spe D -> Z) (nominal : string -> bool) (envof : string -> tenv (N:=N)).
  Notation spe := (spe D).
  Notation wf_spe := (wf_spe dlaw).
  Notation typed := (typed (D:=D) nominal envof).
  (** the terms that an expression contributes to a sum *)
  Definition terms (s : spe) : list spe := match s with SumSPE l => map fst l | _ => [s] end.
  Lemma simplify_leaf_total : forall l, wf_spe (SumSPE l) -> Forall (fun c => is_leaf (fst c) = true) l -> exists t, simplify_sum_leaf hash l = Ok t.
  Proof.
    intros l W Il. unfold simplify_sum_leaf. assert (Fb : forallb (fun c => is_leaf (fst c)) l = true) by (apply forallb_forall; now rewrite Forall_forall in Il). rewrite Fb. cbn [passert bind].
    destruct (blocks_ok _ (fun c : spe * lg S => hash (fst c)) l) as (Pm & Kb). set (p := partition_list_blocks (fun c : spe * lg S => hash (fst c)) l) in *. clearbody p.
    destruct (Nat.eqb _ _); [eauto|].
    assert (Inp : forall b c, In b p -> In c b -> In c l) by (intros b c Hb Hc; apply (Permutation_in _ Pm); apply in_concat; eauto).
    assert (Ne : l <> []) by now apply sum_nonempty in W.
    assert (K : exists t, (do cs <- mapM (fun b : list (spe * lg S) => match b with c :: _ => Ok (fst c) | [] => Raise IndexError end) p; do ws <- mapM (fun b => lse (map snd b)) p; mk_Sum cs ws) = Ok t).
    { destruct (mapM_ok _ _ (fun b : list (spe * lg S) => match b with c :: _ => Ok (fst c) | [] => Raise IndexError end) (fun b c => exists d, In d b /\ c = fst d) p) as (cs & -> & Fc).
      { intros b Hb. destruct (Kb b Hb) as (Nb & _). destruct b as [|c b]; [tauto|]. exists (fst c). split; auto. exists c. split; [now left|auto]. }
      destruct (mapM_ok _ _ (fun b : list (spe * lg S) => lse (map snd b)) (fun b w => toP w = sumR (map (fun c => toP (snd c)) b)) p) as (ws & -> & Fw).
      { intros b Hb. destruct (Kb b Hb) as (Nb & _). destruct (lse_ok S (map snd b)) as (r & Er & Hr); [destruct b; [tauto|discriminate]|]. exists r. split; auto. rewrite Hr, map_map. reflexivity. }
      cbn [bind]. apply (mk_Sum_total dlaw).
      - intros ->. inversion Fc; subst. cbn in Pm. apply Permutation_nil in Pm. auto.
      - transitivity (List.length p); [symmetry; clear -Fc; induction Fc; simpl; auto|clear -Fw; induction Fw; simpl; auto].
      - apply Forall_forall. intros c Hc. destruct (ArithProofs.Forall2_in_r _ _ _ _ _ _ Fc Hc) as (b & Hb & d & Hd & ->). apply (sum_wf dlaw l); eauto.
      - replace (map toP ws) with (map (fun b => sumR (map (fun c : spe * lg S => toP (snd c)) b)) p) by (clear -Fw; induction Fw as [|b w p ws E Fw IH]; cbn [map]; [auto|]; now rewrite E, IH).
        rewrite <- sumR_concat_map, (sumR_perm_map _ _ _ _ Pm). apply W.
      - intros c d x Hc Hd. destruct (ArithProofs.Forall2_in_r _ _ _ _ _ _ Fc Hc) as (b & Hb & c' & Hc' & ->). destruct (ArithProofs.Forall2_in_r _ _ _ _ _ _ Fc Hd) as (b' & Hb' & d' & Hd' & ->).
        rewrite <- (sum_vars dlaw l c' W), <- (sum_vars dlaw l d' W); eauto. }
    destruct K as (t & K). destruct p as [|b [|b' p]]; [eauto| |eauto]. destruct b as [|c b]; [|eauto]. destruct (Kb [] ltac:(now left)) as (Nb & _). tauto.
  Qed.
  Lemma simplify_total : forall l, wf_spe (SumSPE l) -> typed (SumSPE l) -> Forall (fun c => is_leaf (fst c) = true) l \/ Forall (fun c => is_product (fst c) = true) l -> exists t, simplify hash (SumSPE l) = Ok t.
  Proof.
    intros l W T H. cbn [simplify]. unfold simplify_sum. pose proof (sum_nonempty dlaw l W) as Ne. destruct l as [|(c, wc) l]; [tauto|]. destruct H as [F|F].
    - inversion F as [|? ? Ic _]; subst. cbn [fst] in Ic. rewrite Ic. now apply simplify_leaf_total.
    - inversion F as [|? ? Ic _]; subst. cbn [fst] in Ic. rewrite Ic. replace (is_leaf c) with false by (destruct c; try discriminate; auto).
      apply (simplify_product_total dlaw Ed envof (part_ok nominal envof) (part_aenv nominal envof) True (part_sum nominal envof) (part_prod nominal envof)); auto.
      intros c' m E. injection E as <- <-. pose proof (every_here _ _ T) as Pw. cbn in Pw. inversion Pw; auto.
  Qed.
  Lemma sum_terms_in : forall (c : spe) w d, In d (sum_terms c w) -> In (fst d) (terms c).
  Proof. intros c w d H. destruct c; cbn in *; try (destruct H as [<-|[]]; now left). apply in_map_iff in H. destruct H as (e & <- & He). cbn [fst]. now apply in_map. Qed.
  Lemma mk_Sum_terms : forall (cs : list spe) ws t, mk_Sum cs ws = Ok t -> exists l, t = SumSPE l /\ forall d, In d l -> exists c, In c cs /\ In (fst d) (terms c).
  Proof.
    intros cs ws t H. unfold mk_Sum in H. inv_bind H. inv_bind H. inv_bind H. inv_bind H. destruct r2; [|discriminate]. injection H as <-. eexists. split; [reflexivity|].
    intros d Hd. apply in_concat in Hd. destruct Hd as (m & Hm & Hd). apply in_map_iff in Hm. destruct Hm as ((c, w) & <- & Hc). exists c. split; [now apply in_combine_l in Hc|]. eapply sum_terms_in; eauto.
  Qed.
End Simplify.

(** ** The block of branches *)
Section Block.
  Context {N : numsys} {S : logsys} {D : distsys N S} (io : iterorder N) (so : strorder) (po : polyoracle N) (fuel : nat).
  Context (dlaw : dist D -> (fval -> R) -> R) (Ed : eq_dist dlaw).
  Context (hash : spe D -> Z) (ids : spe D -> spe D -> nat) (no_simplify : bool) (nominal : string -> bool) (envof envof' : string -> tenv (N:=N)).
  Notation spe := (spe D).
  Notation tr := (tr N).
  Notation lg := (lg S).
  Notation den := (den dlaw).
  Notation wf_spe := (wf_spe dlaw).
  Notation surely := (surely dlaw).
  Notation typed := (typed (D:=D) nominal envof).
  Notation cond_ok := (cond_ok dlaw nominal envof).
  Notation tyd := (CondTypes.typed (D:=D) nominal envof').
  Context (s : spe) (W : wf_spe s) (T : typed s) (A : asg -> Prop) (SA : surely s A).
  Context {B : Type}.
  Notation case := ((asg -> Prop) * B)%type.
  Notation event_at := (event_at nominal s A).
  Context (Hid : forall s, distinct (ids s) s).
  Notation valid := (valid dlaw (ids s) (within s) (Forall (centry_ok dlaw (ids s) nominal envof (within s))) (fun _ => True) (fun _ => True)).
  Notation logprob := (logprob io po fuel (ids s)).
  Notation condition := (condition io so po fuel (ids s) hash).
  (** the questions that are asked about s have answers *)
  Definition answers (q : case) (o : option tr) : Prop :=
    match o with Some e => safe valid (logprob s e) /\ (0 < Pr dlaw s (fst q) -> safe valid (condition s e)) | None => True end.
  Lemma branches_total : forall (Ps : list case) (evs : list (option tr)) subs, Forall2 event_at Ps evs -> Forall2 answers Ps evs -> List.length subs = List.length evs ->
    sumR (map (fun q => Pr dlaw s (fst q)) Ps) = 1 ->
    exists rows, if_branches io so po fuel hash ids s evs subs = Ok rows.
  Proof.
    intros Ps evs subs F Fa Ln Tot. pose proof (within_closed (ids s) s (Hid s)) as Uc. unfold if_branches.
    match goal with |- exists rows, fst (?m _) = _ => assert (K : safe valid m) end; [|exact (K Memo (fresh_valid dlaw (ids s) nominal envof (within s)))].
    set (ask := fun e : option tr => match e with Some e => logprob s e | None => mret lninf end).
    assert (Sl : forall o, In o evs -> sat valid (ask o) (fun w => forall q : case, event_at q o -> toP w = Pr dlaw s (fst q)) /\ safe valid (ask o)).
    { intros o Ho. destruct (ArithProofs.Forall2_in_r _ _ _ _ _ _ F Ho) as (q & Hq & Eq). destruct (ArithProofs.Forall2_in_r _ _ _ _ _ _ Fa Ho) as (q' & Hq' & Aq). destruct o as [e|]; cbn [ask].
      - split; [|apply Aq]. intros m V. destruct (logprob_valid io po fuel dlaw (ids s) nominal envof (within s) Uc s e m (within_self s) W (typed_atoms nominal envof s T)) as (V' & K); auto.
        + apply conditionable_askable. now apply (event_conditionable dlaw nominal s W A q).
        + split; auto. intros p Hp q2 Eq2. rewrite (K p Hp). unfold prob, Pr. now rewrite (event_pr dlaw nominal s W A SA q2 (Some e)).
      - split; [|apply safe_ret]. apply sat_ret. intros q2 Eq2. rewrite lninf_ok. unfold Pr. now rewrite (event_pr dlaw nominal s W A SA q2 None). }
    apply safe_bind with (P := Forall2 (fun o w => forall q : case, event_at q o -> toP w = Pr dlaw s (fst q)) evs).
    - apply sat_mmap. intros o Ho. now apply Sl.
    - apply safe_mmap with (P := fun o w => forall q : case, event_at q o -> toP w = Pr dlaw s (fst q)). exact Sl.
    - intros ws Fw.
      assert (Fp : Forall2 (fun q w => toP w = Pr dlaw s (fst q)) Ps ws) by (clear -F Fw; revert ws Fw; induction F; intros ws Fw; inversion Fw; subst; constructor; auto).
      assert (Ne : positive (combine (combine evs subs) ws) <> []).
      { intros Z. assert (K : sumR (map (fun q => Pr dlaw s (fst q)) Ps) = 0); [|lra]. clear Tot Fw Sl Fa. revert subs ws Ln Fp Z. induction F as [|q o Ps evs Hq F IH]; intros [|sub subs] ws Ln Fp Z; try discriminate; inversion Fp as [|? w ? ws' Ew Fp']; subst; [reflexivity|].
        cbn [map]. change (sumR (?a :: ?l)) with (a + sumR l). unfold positive in Z, IH. cbn [combine filter snd] in Z. destruct (lisninf w) eqn:En; cbn [negb] in Z; [|discriminate]. apply lisninf_ok in En. rewrite (IH subs ws'); auto. lra. }
      apply safe_bind with (P := fun _ => True); [apply sat_lift; auto|apply safe_lift; destruct (positive _); [tauto|exists tt; reflexivity]|]. intros _ _.
      apply safe_mmap with (P := fun _ _ => True). intros p Hp. apply kept_pos in Hp. destruct Hp as (Hp & Pp).
      assert (Hq : exists q, event_at q (fst (fst p)) /\ answers q (fst (fst p)) /\ 0 < Pr dlaw s (fst q)).
      { clear Ne Tot Fw Sl. revert subs ws Ln Fp Hp Fa. induction F as [|q o Ps evs Hq F IH]; intros [|sub subs] ws Ln Fp Hp Fa; try discriminate; inversion Fp as [|? w ? ws' Ew Fp']; subst; [destruct Hp|]. inversion Fa as [|? ? ? ? Aq Fa']; subst.
        cbn [combine] in Hp. destruct Hp as [<-|Hp]; [|apply (IH subs ws'); auto]. cbn [fst snd] in *. exists q. split; auto. split; auto. lra. }
      destruct Hq as (q & Eq & Aq & Pq). destruct (fst (fst p)) as [e|].
      + destruct Aq as (_ & Sc). specialize (Sc Pq). pose proof (event_conditionable dlaw nominal s W A q e Eq) as Ce.
        assert (Sat : sat valid (condition s e) (fun t => cond_ok s (holds e) t)) by (intros m V; exact (condition_valid io so po fuel dlaw Ed (ids s) hash nominal envof (within s) Uc s e m (within_self s) W T Ce V)).
        split; [eapply sat_bind; [exact Sat|]; intros t _; now apply sat_ret|]. eapply safe_bind; [exact Sat|exact Sc|]. intros t _. apply safe_ret.
      + exfalso. pose proof (event_pr dlaw nominal s W A SA q None w0 Eq) as Z. unfold Pr in Pq. rewrite Z in Pq. lra.
  Qed.
  (** what a subcommand must give *)
  Definition result_ok (V' : string -> Prop) (leaves : bool) (d : spe) : Prop :=
    wf_spe d /\ tyd d /\ (forall x, vars d x <-> V' x) /\ (no_simplify = true \/ Forall (fun c => (if leaves then is_leaf c else is_product c) = true) (terms d)).
  Theorem block_returns : forall (Ps : list case) (evs : list (option tr)) subs V' leaves (J J' : spe -> Prop), (forall rows, if_branches io so po fuel hash ids s evs subs = Ok rows -> Forall (fun r => J (fst (fst r))) rows) ->
    (forall cs ws t, Forall J' cs -> mk_Sum cs ws = Ok t -> J' t) -> (forall d t, J' d -> simplify hash d = Ok t -> J' t) -> Forall2 event_at Ps evs -> Forall2 answers Ps evs -> List.length subs = List.length evs ->
    sumR (map (fun q => Pr dlaw s (fst q)) Ps) = 1 ->
    (forall q sub c, In (q, sub) (combine Ps subs) -> 0 < Pr dlaw s (fst q) -> cond_ok s (fst q) c -> J c -> exists d, sub c = Ok (Some d) /\ result_ok V' leaves d /\ J' d) ->
    exists t, if_block io so po fuel hash ids no_simplify (Some s) evs subs = Ok (Some t) /\ J' t.
  Proof.
    intros Ps evs subs V' leaves J J' HJ Jm Js F Fa Ln Tot Sub. unfold if_block. rewrite Ln, Nat.eqb_refl. cbn [passert bind]. destruct (branches_total Ps evs subs F Fa Ln Tot) as (rows & Er). rewrite Er. cbn [bind]. specialize (HJ rows Er). rewrite Forall_forall in HJ.
    destruct (branches_ok io so po fuel dlaw Ed hash ids nominal envof s W T A SA Hid Ps evs subs rows F Ln Er) as (ws & Fw & Fr).
    assert (LP : List.length Ps = List.length subs) by (rewrite Ln; clear -F; induction F; simpl; auto).
    set (L := positive (combine (combine Ps subs) ws)) in *.
    assert (Wt : forall p, In p L -> In (fst (fst p), snd (fst p)) (combine Ps subs) /\ toP (snd p) = Pr dlaw s (fst (fst (fst p))) /\ 0 < toP (snd p)).
    { intros p Hp. apply kept_pos in Hp. destruct Hp as (Hp & Pp). destruct p as ((q, sub), w). cbn [fst snd] in *. pose proof (in_combine_l _ _ _ _ Hp) as Hq. split; auto. split; auto.
      clear -Fw Hp. revert subs Hp. induction Fw as [|q' w' Ps ws E Fw IH]; intros [|sub' subs] Hp; cbn in Hp; try contradiction. destruct Hp as [Hp|Hp]; [injection Hp as -> _ ->; exact E|eauto]. }
    assert (Tw : sumR (map toP (map snd rows)) = 1).
    { rewrite <- Tot. transitivity (sumR (map (fun p => toP (snd p)) L)); [clear -Fr; induction Fr as [|p row l rows (_ & R2 & _) Fr IH]; cbn [map]; auto; repeat change (sumR (?a :: ?l)) with (a + sumR l); now rewrite IH, R2|].
      unfold L. clear -Fw LP. revert subs LP. induction Fw as [|q w' Ps ws E Fw IH]; intros [|sub subs] LP; try discriminate; auto. cbn [combine]. unfold positive in *. cbn [filter snd].
      cbn [map]. change (sumR (?a :: ?l)) with (a + sumR l). rewrite <- (IH subs) by (cbn in LP; lia). rewrite <- E. destruct (lisninf w') eqn:En; cbn [negb map snd]; [apply lisninf_ok in En; rewrite En; lra|]. change (sumR (?a :: ?l)) with (a + sumR l). reflexivity. }
    assert (Nr : rows <> []) by (intros ->; cbn in Tw; lra).
    destruct (lse_ok S (map snd rows)) as (t & Et & Ht); [destruct rows; [tauto|discriminate]|]. rewrite Et. cbn [bind]. rewrite (lclose_ok S t lzero) by (now rewrite Ht, lzero_ok). cbn [passert bind].
    destruct (mapM_ok _ _ (fun b : spe * (spe -> res (option spe)) * lg => do c <- snd (fst b) (fst (fst b)); match c with Some c => Ok c | None => Raise AttributeError end) (fun _ d => result_ok V' leaves d /\ J' d) rows) as (cs & -> & Fc).
    { intros row Hr. destruct (ArithProofs.Forall2_in_r _ _ _ _ _ _ Fr Hr) as (p & Hp & R1 & R2 & R3). destruct (Wt p Hp) as (P1 & P2 & P3). destruct (Sub (fst (fst p)) (snd (fst p)) (fst (fst row))) as (d & Ed' & Rd); auto; [lra|]. exists d. rewrite R1, Ed'. auto. }
    cbn [bind].
    assert (Fk : Forall (result_ok V' leaves) cs) by (clear -Fc; induction Fc as [|? ? ? ? (K & _) Fc IH]; auto).
    assert (Fj : Forall J' cs) by (clear -Fc; induction Fc as [|? ? ? ? (_ & K) Fc IH]; auto).
    assert (Lc : List.length cs = List.length (map snd rows)) by (rewrite map_length; clear -Fc; induction Fc; simpl; auto).
    assert (Fin : exists t, (do s' <- mk_Sum cs (map snd rows); if no_simplify then Ok (Some s') else do s'' <- simplify hash s'; Ok (Some s'')) = Ok (Some t) /\ J' t).
    { assert (Wc : Forall wf_spe cs) by (eapply Forall_impl; [|exact Fk]; intros d Hd; apply Hd).
      destruct (mk_Sum_total dlaw cs (map snd rows)) as (s' & Es); auto.
      - intros ->. destruct rows; [tauto|discriminate].
      - intros c d x Hc Hd. rewrite Forall_forall in Fk. destruct (Fk c Hc) as (_ & _ & Vc & _). destruct (Fk d Hd) as (_ & _ & Vd & _). rewrite Vc, Vd. auto.
      - rewrite Es. cbn [bind]. pose proof (Jm cs _ s' Fj Es) as Jt. destruct no_simplify eqn:Ens; [eauto|]. destruct (mk_Sum_ok dlaw cs (map snd rows) s' Wc Es Tw) as (_ & Ws & _).
        destruct (mk_Sum_terms cs (map snd rows) s' Es) as (l & -> & Tl).
        destruct (simplify_total dlaw Ed hash nominal envof' l Ws) as (t' & Et').
        + apply (mk_Sum_every (part_ok nominal envof') True (part_sum nominal envof') cs (map snd rows)); auto.
          * eapply Forall_impl; [|exact Fk]. intros d Hd. apply Hd.
          * intros _. apply Forall_map. apply Forall_forall. intros row Hr. destruct (ArithProofs.Forall2_in_r _ _ _ _ _ _ Fr Hr) as (p & Hp & _ & -> & _). now apply kept_pos in Hp.
        + assert (Ft : forall d, In d l -> (if leaves then is_leaf (fst d) else is_product (fst d)) = true).
          { intros d Hd. destruct (Tl d Hd) as (c & Hc & Hd'). rewrite Forall_forall in Fk. destruct (Fk c Hc) as (_ & _ & _ & [Z|Fc']); [congruence|]. rewrite Forall_forall in Fc'. exact (Fc' _ Hd'). }
          destruct leaves; [left|right]; now apply Forall_forall.
        + rewrite Et'. cbn [bind]. exists t'. split; [reflexivity|]. now apply (Js (SumSPE l)). }
    destruct cs as [|c [|c' cs]]; [exact Fin|exists c; split; [reflexivity|now inversion Fj]|exact Fin].
  Qed.
End Block.
