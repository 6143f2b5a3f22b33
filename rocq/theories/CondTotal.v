(** Conditioning on comparisons of positive probability gives a result. *)
From Coq Require Import List Bool String Reals Lra Lia ZArith QArith Qreals FunctionalExtensionality Permutation.
From Verif Require Import Base Num Sets SetSpec SetIv SetProofs SetOr SetOps SetAlg SetBuilt
  Poly Trans TransSpec TransFacts PolyProofs InvProofs InvMain EvProofs ArithProofs
  Dnf DnfSpec DnfProofs DnfUnion PropDnf Logs Spe SpeSpec SpeFacts SpeRect LeafProofs LeafEvents LeafCond SpeCons LeafGiven SpeOps OpsProofs MemoProofs
  NormSorts LogprobProofs LogprobTop SpeEq SimplifyProofs CondTypes CondProofs TotalSpec TotalEnds TotalSets TotalSolve TotalProofs CondLeafTotal SimplifyTotal TightUnion.
Import ListNotations.
Local Open Scope R_scope.

(** What conditioning on the region P needs of the leaves; P matters outside products only. *)
Section Ready.
  Context {N : numsys} {S : logsys} {D : distsys N S} (cuts points : string -> R -> Prop).
  Notation spe := (spe D).
  Fixpoint ready (P : asg -> Prop) (many : bool) (s : spe) : Prop :=
    match s with
    | RealLeaf disc x _ _ _ _ => (disc = true -> forall r, cuts x r \/ points x r -> exists z, r = IZR z) /\ (disc = false -> many = true -> no_isolated x P)
    | SumSPE l => All (fun c => ready P many (fst c)) l
    | ProductSPE l => All (ready P false) l
    | _ => True
    end.
  Lemma alone_iff : forall r (P Q : R -> Prop), (forall q, P q <-> Q q) -> alone r P -> alone r Q.
  Proof. intros r P Q H (e & He & K). exists e. split; auto. intros q A B C. apply (K q); auto. now apply H. Qed.
  Lemma ready_iff : forall (P Q : asg -> Prop) many s, (forall w, P w <-> Q w) -> ready P many s -> ready Q many s.
  Proof.
    intros P Q many s H. revert many. induction s using spe_ind'; intros many R; cbn in *; auto.
    - destruct R as (A & B). split; auto. intros E1 E2 w r K Al. apply (B E1 E2 w r); [now apply H|]. revert Al. apply alone_iff. intros q. symmetry. apply H.
    - apply SpeFacts.All_intro. intros c Hc. apply H0; auto. exact (SpeFacts.All_In _ _ _ _ R Hc).
    - apply SpeFacts.All_intro. intros c Hc. apply H0; auto. exact (SpeFacts.All_In _ _ _ _ R Hc).
  Qed.
  Lemma ready_false : forall (P Q : asg -> Prop) s, ready P false s -> ready Q false s.
  Proof.
    intros P Q. induction s using spe_ind'; intros R; cbn in *; auto.
    - split; [apply R|discriminate].
    - apply SpeFacts.All_intro. intros c Hc. apply H; auto. exact (SpeFacts.All_In _ _ _ _ R Hc).
    - apply SpeFacts.All_intro. intros c Hc. apply H; auto. exact (SpeFacts.All_In _ _ _ _ R Hc).
  Qed.
  Lemma steady_inside : forall P s, steady cuts points s -> ready P false s.
  Proof.
    intros P. induction s using spe_ind'; intros St; cbn in *; auto.
    - split; auto. discriminate.
    - apply SpeFacts.All_intro. intros c Hc. apply H; auto. exact (SpeFacts.All_In _ _ _ _ St Hc).
    - apply SpeFacts.All_intro. intros c Hc. apply H; auto. exact (SpeFacts.All_In _ _ _ _ St Hc).
  Qed.
  Lemma steady_lumpy : forall P s, steady cuts points s -> lumpy s -> ready P true s.
  Proof.
    intros P. induction s using spe_ind'; intros St Lu; cbn in *; auto.
    - split; auto. congruence.
    - apply SpeFacts.All_intro. intros c Hc. apply H; auto; [exact (SpeFacts.All_In _ _ _ _ St Hc)|exact (SpeFacts.All_In _ _ _ _ Lu Hc)].
    - apply SpeFacts.All_intro. intros c Hc. apply steady_inside. exact (SpeFacts.All_In _ _ _ _ St Hc).
  Qed.
End Ready.

Section Leaves.
  Context {N : numsys} {S : logsys} {D : distsys N S} (io : iterorder N) (po : polyoracle N) (fuel : nat).
  Context (dlaw : dist D -> (fval -> R) -> R) (nominal : string -> bool) (cuts points : string -> R -> Prop).
  Notation spe := (spe D).
  Notation tr := (tr N).
  Notation wf_leaf := (wf_leaf dlaw).
  Notation leaf_law := (leaf_den_law dlaw).
  Notation flat := (flat (N:=N) nominal cuts points).
  Notation open_leaves := (open_leaves (D:=D) nominal cuts).
  Notation ready := (ready (D:=D) cuts points).

  Lemma and_one : forall (i : interval N) b r, pand io (PB (BInt i)) (PB b) = Ok r -> not_union r.
  Proof.
    intros i b r H. cbn [pand and_bb] in H. destruct b as [vs f|vs|j].
    - injection H as <-. exact Logic.I.
    - injection H as <-. unfold and_real_iv, freal_or_empty. destruct (dedup _ _); exact Logic.I.
    - unfold iv_and in H. repeat match type of H with context [if ?c then _ else _] => destruct c end; try (inv_bind H); injection H as <-; exact Logic.I.
  Qed.
  Lemma nominal_condition_total : forall x ws (v : pset N), wf_leaf (NominalLeaf x ws) -> wf v -> v = PEmpty \/ nominal_set v -> 0 < nom_law ws (ind (fun u => fm u v)) ->
    exists t, leaf_solved_condition io (D:=D) (NominalLeaf x ws) v = Ok t.
  Proof.
    intros x ws v W Wv Nv Pos. pose proof W as (Nd & P & T). cbn [leaf_solved_condition].
    assert (exists s0, FiniteNominal (N:=N) (map fst ws) None = Ok s0) as (s0 & Es).
    { unfold FiniteNominal. destruct ws as [|w ws]; [cbn in T; discriminate T|]. cbn [map is_nil negb orb passert bind]. eauto. }
    rewrite Es. cbn [bind]. pose proof (FiniteNominal_wf _ _ _ Es) as Ws.
    assert (exists r, pand io s0 v = Ok r) as (r & Hr).
    { unfold FiniteNominal in Es. inv_bind Es. injection Es as <-. destruct Nv as [-> |Nv]; [exists PEmpty; reflexivity|]. destruct v as [|b|u]; try contradiction. destruct (and_bb_ok _ b Ws Wv) as (r' & Hr & _). exists r'. exact Hr. }
    rewrite Hr. cbn [bind]. destruct (nominal_values io _ _ _ _ Es Wv Hr) as (Wr & In1 & Vv & Ns & Vb).
    assert (Nr : r = PEmpty \/ nominal_set r) by (apply (and_nominal io s0 v); auto; unfold FiniteNominal in Es; inv_bind Es; injection Es as <-; right; exact Logic.I).
    assert (Sum : nom_law ws (ind (fun u => fm u v)) = nom_law ws (ind (fun u => fm u r))).
    { unfold nom_law. apply sumR_ext. intros k Hk. f_equal. apply ind_eq. symmetry. apply Vv. now apply in_map. }
    destruct r as [|[vs b|vs|i]|u]; try (destruct Nr as [Nr|Nr]; [discriminate|destruct Nr]).
    - exfalso. rewrite Sum in Pos. unfold nom_law in Pos. rewrite sumR_zero in Pos; [lra|]. intros k _. rewrite ind_false; [ring|]. intros [].
    - destruct (Vb vs b eq_refl) as (Tb & Nvs & Fm & Inc).
      assert (exists p, nom_prob ws vs = Ok p) as (p & Ep).
      { unfold nom_prob. destruct (mapM_ok _ _ (fun x0 => match lookup x0 ws with Some q => Ok q | None => Raise KeyError end) (fun _ _ => True) vs) as (ps & -> & _); [|cbn [bind]; eauto].
        intros k Hk. specialize (Inc k Hk). destruct (lookup_key _ k ws Inc) as (q & ->). eauto. }
      rewrite Ep. cbn [bind]. assert (Pp : Q2R p = nom_law ws (ind (fun u => fm u v))).
      { rewrite (nom_prob_sum _ _ _ Nd Nvs Ep). unfold nom_law. apply sumR_ext. intros k Hk. f_equal. apply ind_eq. rewrite <- Vv by now apply in_map. symmetry. apply Fm. }
      assert (Ez : Qeq_bool p 0 = false). { destruct (Qeq_bool p 0) eqn:E; auto. apply Qeq_bool_iff, Qeq_eqR in E. rewrite Q2R_0 in E. lra. }
      rewrite Ez. destruct (Qeq_bool p 1); [eauto|]. unfold mk_NominalLeaf. rewrite map_map. cbn [fst].
      change (map (fun x0 : string * Q => fst x0) ws) with (map fst ws). rewrite Es. cbn [bind]. rewrite map_map. cbn [snd].
      assert (E1 : Qeq_bool (Qsum (map (fun c : string * Q => if nom_contains (fst c) vs b then (snd c / p)%Q else 0%Q) ws)) 1 = true).
      { apply Qeq_bool_iff. apply eqR_Qeq. rewrite Qsum_R, map_map. replace (Q2R 1) with 1 by (unfold Q2R; cbn; lra). pose proof (nom_prob_sum _ _ _ Nd Nvs Ep) as Sp.
        assert (Np : ~ (p == 0)%Q) by (intros K; apply Qeq_bool_iff in K; congruence).
        transitivity (sumR (map (fun k => ind (fun x => In x vs) (fst k) * Q2R (snd k) * / Q2R p) ws)).
        - apply sumR_ext. intros k Hk. destruct (nom_contains (fst k) vs b) eqn:Ec.
          + rewrite ind_true; [unfold Qdiv; rewrite Q2R_mult, Q2R_inv by auto; ring|]. apply (proj1 (nom_contains_ok (N:=N) _ _ _)) in Ec. cbn [bmem] in Ec. rewrite Tb in Ec. exact Ec.
          + rewrite ind_false; [rewrite Q2R_0; ring|]. intros K. assert (Ec' : nom_contains (fst k) vs b = true) by (apply (nom_contains_ok (N:=N)); cbn [bmem]; now rewrite Tb). congruence.
        - transitivity (/ Q2R p * sumR (map (fun k => ind (fun x => In x vs) (fst k) * Q2R (snd k)) ws)).
          + rewrite Rmult_comm, <- sumR_scale. reflexivity.
          + rewrite <- Sp. field. lra. }
      rewrite E1. cbn [passert bind]. eauto.
  Qed.
  (** a leaf given a set of values of the right sort *)
  Lemma solved_condition_total : forall s many (v : pset N), wf_leaf s -> open_leaves many s -> ready (fun w => fm (w (var_of s)) v) many s -> (nominal (var_of s) = false -> tight v) -> wf v -> (if nominal (var_of s) then v = PEmpty \/ nominal_set v else real_set v /\ ends (cuts (var_of s)) (points (var_of s)) v) ->
    (many = false -> not_union v) -> 0 < leaf_law s (ind (fun u => fm u v)) -> exists t, leaf_solved_condition io s v = Ok t.
  Proof.
    intros s many v W O St Ti Wv Sv Nu Pos. destruct s as [disc x d supp cond env|x a env|x ws|l|l]; try contradiction; unfold var_of in Sv, St, Ti; cbn [leaf_env fst] in Sv, St, Ti.
    - cbn [TotalSpec.open_leaves] in O. destruct O as (En & Cl). rewrite En in Sv. destruct Sv as (Rv & Ev).
      assert (exists r, pand io (PB (BInt supp)) v = Ok r) as (r & Hr).
      { destruct v as [|b|u]; [exists PEmpty; reflexivity| |].
        - destruct W as (W1 & _). destruct (and_bb_ok (BInt supp) b W1 Wv) as (r & Hr & _). exists r. exact Hr.
        - destruct many; [|destruct (Nu eq_refl)]. apply (and_open_total io cuts points x); auto. apply W. }
      pose proof W as (W1 & W2 & W3 & W4 & _). cbn [CondTotal.ready] in St. destruct St as (St & Sc).
      apply (real_condition_total dlaw disc d supp cond W1 W2 W3 W4 io v r x env Wv W Hr); auto.
      + intros Ed. specialize (St Ed). apply (pand_ends io wholeR wholeR (PB (BInt supp)) v r); auto.
        * destruct (W2 Ed) as (Ia & Ib & _). split; [|intros vs y q [E|[]]; discriminate]. intros i [E|[]] q Hq. injection E as <-. unfold integer_end in *. destruct Hq as [Hq|Hq].
          -- destruct (iv_a supp); cbn in Hq; try discriminate. injection Hq as <-. exact Ia.
          -- destruct (iv_b supp); cbn in Hq; try discriminate. injection Hq as <-. exact Ib.
        * destruct Ev as (E1 & E2). split; [intros i Hi q Hq; apply St; left; exact (E1 i Hi q Hq)|]. intros vs y q Hv Hy Hq. left. apply St. exact (E2 vs y q Hv Hy Hq).
      + intros Ed. destruct many.
        * apply (smooth_values io nominal cuts points x v supp); auto. intros q Hq Al. specialize (Sc Ed eq_refl (fun _ => FNum 0) q). unfold upd in Sc. rewrite String.eqb_refl in Sc. now apply Sc.
        * left. specialize (Nu eq_refl). destruct v as [|b|u]; [cbn in Hr; injection Hr as <-; exact Logic.I|exact (and_one supp b r Hr)|contradiction].
    - cbn [TotalSpec.open_leaves] in O. destruct O as (En & _). rewrite En in Sv. cbn [leaf_solved_condition]. destruct (contains_total io (Fin a) v (proj1 Sv)) as (b & Eb). rewrite Eb. cbn [bind].
      assert (b = true) as ->; [|cbn [passert bind]; eauto]. apply (contains_ok io (VNum (Fin a)) v b Wv (proj1 Sv) Eb). cbn [rv eR]. fold (fm (FNum (toR a)) v). cbn [leaf_den_law] in Pos. unfold ind in Pos. destruct (dec (fm (FNum (toR a)) v)); [auto|lra].
    - cbn [TotalSpec.open_leaves] in O. rewrite O in Sv. now apply nominal_condition_total.
  Qed.
  Lemma leaf_condition_total : forall s many e w, (1 <= fuel)%nat -> wf_leaf s -> open_leaves many s -> ready (holds e) many s -> flat (var_of s) e -> (many = false -> is_basic e = true) -> 0 < SpeSpec.den dlaw s (ind (holds e)) w ->
    exists t, leaf_condition io po fuel s e = Ok t.
  Proof.
    intros s many e w Hf W O St F Bo Pos. unfold leaf_condition. fold (var_of s). pose proof (flat_symbols nominal cuts points _ e F) as Sy. pose proof (flat_gev nominal cuts points _ e F) as G.
    pose proof (open_weaken nominal cuts s many O) as Ow.
    destruct (leaf_total io po fuel dlaw nominal cuts points s e Hf W Ow F) as (p & Ep). { destruct many; auto. }
    assert (Ws : SpeSpec.wf_spe dlaw s) by (apply wf_leaf_spe; auto; now apply (wf_leaf_leaf dlaw)).
    assert (Ov : on_vars e).
    { destruct F as [(_ & k & u & -> & _)|(l & -> & _ & Fl)]; [constructor; [exists k, (var_of s), u; reflexivity|constructor]|]. unfold on_vars. cbn [lits]. apply Forall_concat, Forall_map. eapply Forall_impl; [|exact Fl].
      intros a (_ & k & u & -> & _). constructor; [exists k, (var_of s), u; reflexivity|constructor]. }
    assert (Rg : surely dlaw s (regular true e)).
    { intros w'. rewrite (law_ext (I:=fun g => SpeSpec.den dlaw s g w') _ (fun _ => 0)); [apply (law_const (den_kernel dlaw s Ws w'))|]. intros a. apply ind_false. intros K. apply K. now apply on_vars_regular. }
    assert (Na : atomic s -> nominal (var_of s) = false). { intros At. destruct s; try contradiction. exact (proj1 O). }
    assert (Nn : atomic s -> num_event e) by (intros At; apply (flat_num nominal cuts points _ e F); auto).
    rewrite <- (leaf_logprob_ok io po fuel dlaw s e p W G Rg Nn Ep w) in Pos. unfold leaf_logprob in Ep. fold (var_of s) in Ep.
    rewrite leaf_event_total in * by (auto; now apply (leaf_built dlaw)). cbn [bind] in *. destruct (solve_flat io po fuel nominal cuts points _ e Hf F) as (v & Ev & Wv & Sv). rewrite Ev in *. cbn [bind] in *.
    assert (Sm : forall w, fm (w (var_of s)) v <-> holds e w).
    { intros w'. destruct (solve_ok io po fuel (var_of s) e v true (proj1 G) (flat_only nominal cuts points _ e F) (proj2 G) Ev) as (_ & K). apply K. now apply on_vars_regular. }
    apply (solved_condition_total s many); auto.
    - revert St. apply ready_iff. intros w'. symmetry. apply Sm.
    - intros Nf. now apply (solve_tight io po fuel nominal cuts points (var_of s) e).
    - intros Em. specialize (Bo Em). destruct F as [(Gk & k & u & -> & _)|(l & -> & _)]; [|discriminate]. cbn in Ev. injection Ev as <-. destruct u; simpl; auto. now apply gev_not_union in Gk.
    - rewrite <- (solved_logprob_ok io dlaw s v p W Wv); auto. intros At. rewrite (Na At) in Sv. apply Sv.
  Qed.
  Notation afactor := (afactor nominal cuts points).
  Lemma factor_flat : forall s f, wf_leaf s -> open_leaves false s -> afactor s f ->
    exists e, event_factor_to_event io f = Ok e /\ flat (var_of s) e /\ (List.length f = 1%nat -> is_basic e = true).
  Proof.
    intros s f W O (Ne & F). unfold event_factor_to_event.
    assert (Vx : forall x, own s x -> x = var_of s) by (intros x Hx; now apply (leaf_own dlaw s)).
    assert (exists ls, mapM (fun c : clause (N:=N) => reduceM (ev_and io) (map snd c)) f = Ok ls /\ Forall (cmp nominal cuts points (var_of s)) ls /\ List.length ls = List.length f) as (ls & E & Fl & L).
    { clear Ne. induction F as [|c f ((Nc & Fc) & Nd & Vc) F IH]; [exists []; split; [reflexivity|split; [constructor|reflexivity]]|]. destruct IH as (ls & E & Fl & L).
      destruct c as [|(x, a) [|(y, b) c]]; [tauto| |].
      - inversion Fc as [|? ? Ca _]; subst. cbn [fst snd] in Ca. exists (a :: ls). cbn [mapM map snd reduceM foldM bind]. rewrite E. cbn [bind List.length]. split; [reflexivity|]. split; [|auto]. constructor; auto.
        rewrite <- (Vx x); auto. apply (Vc (x, a)). now left.
      - exfalso. cbn [map fst] in Nd. inversion Nd as [|? ? Nx _]; subst. apply Nx. left. rewrite (Vx x) by (apply (Vc (x, a)); now left). apply Vx. apply (Vc (y, b)). right. now left. }
    rewrite E. cbn [bind]. destruct (reduce_flat io nominal cuts points (var_of s) ls) as (e & Ee & Fe & Be); auto. { intros ->. destruct f; [tauto|discriminate]. }
    exists e. split; auto. split; auto. intros L1. apply Be. congruence.
  Qed.
  Lemma leaf_factor_condition : forall s many f w, (1 <= fuel)%nat -> wf_leaf s -> open_leaves many s -> ready (factor_holds f) many s -> afactor s f -> (many = false -> List.length f = 1%nat) -> 0 < SpeSpec.den dlaw s (ind (factor_holds f)) w ->
    exists t, (do e <- event_factor_to_event io f; leaf_condition io po fuel s e) = Ok t.
  Proof.
    intros s many f w Hf W O St A L Pos. destruct (factor_flat s f W (open_weaken nominal cuts s many O) A) as (e & Ee & Fe & Be). rewrite Ee. cbn [bind].
    destruct (event_factor_ok io nominal f e (afactor_good nominal cuts points s f A) Ee) as (_ & He & _).
    apply (leaf_condition_total s many e w); auto; [|rewrite (ind_iff _ (holds e) (factor_holds f)); auto]. revert St. apply ready_iff. intros w'. symmetry. apply He.
  Qed.
End Leaves.

Section Branches.
  Context {N : numsys} {S : logsys} {D : distsys N S} (io : iterorder N) (so : strorder) (po : polyoracle N) (fuel : nat).
  Context (dlaw : dist D -> (fval -> R) -> R) (Ed : eq_dist dlaw) (ident : spe D -> nat) (hash : spe D -> Z).
  Context (nominal : string -> bool) (envof : string -> tenv (N:=N)) (cuts points : string -> R -> Prop).
  Notation spe := (spe D).
  Notation tr := (tr N).
  Notation den := (den dlaw).
  Notation wf_spe := (wf_spe dlaw).
  Notation clause := (clause (N:=N)).
  Notation factor := (factor (N:=N)).
  Notation cclause := (cclause (N:=N) nominal cuts points).
  Notation afactor := (afactor (D:=D) nominal cuts points).
  Notation good_factor := (good_factor (N:=N) nominal).
  Notation good_clause := (good_clause (N:=N) nominal).
  Notation open_leaves := (open_leaves (D:=D) nominal cuts).
  Notation ready := (ready (D:=D) cuts points).
  Notation typed := (typed (D:=D) nominal envof).
  Notation part_ok := (part_ok (D:=D) nominal envof).
  Notation condition_mem := (condition_mem io so po fuel ident hash).
  Notation logprob_mem := (logprob_mem io po fuel ident).
  Notation cond_ok := (cond_ok dlaw nominal envof).
  Context (Hf : (1 <= fuel)%nat).
  Context (U : spe -> Prop) (Uc : closed ident U).
  Context (C2 : list ((nat * assignment (N:=N)) * (nat * lg S)) -> Prop) (C3 : list ((nat * assignment (N:=N)) * spe) -> Prop).
  Notation centry_ok := (centry_ok dlaw ident nominal envof U).
  Notation valid := (valid dlaw ident U (Forall centry_ok) C2 C3).
  Notation safe := (safe valid).
  Notation sat := (sat valid).

  Lemma memo_condition_safe : forall s f x, safe x -> safe (memo_condition ident s f x).
  Proof.
    intros s f x H t Ht. unfold memo_condition. destruct (find_key factor_key_eqb (ident s, f) (m_condition t)); [eexists; reflexivity|].
    destruct (H t Ht) as (a & E). destruct (x t) as [r t']. cbn [fst] in E. subst r. eexists. reflexivity.
  Qed.
  Lemma positive_some : forall A (ps : list (A * lg S)), 0 < sumR (map toP (map snd ps)) -> positive ps <> [].
  Proof.
    intros A ps P Z. rewrite sumR_zero in P; [lra|]. intros y Hy. apply in_map_iff in Hy. destruct Hy as (q & <- & Hq). destruct (toP_nonneg S (snd q)) as [K|K]; [|auto]. exfalso.
    assert (In q (positive ps)) by (now apply filter_In_pos). rewrite Z in *. contradiction.
  Qed.

  Lemma positive_all : forall A (ps : list (A * lg S)), Forall (fun w => 0 < toP w) (map snd (positive ps)).
  Proof. intros A ps. rewrite Forall_map. apply Forall_forall. intros q H. now apply filter_In_pos in H. Qed.

  (** ** Sums *)
  Section Sum.
    Context (l : list (spe * lg S)) (Ws : wf_spe (SumSPE l)) (Ts : typed (SumSPE l)) (f : factor).
    Context (Lk : forall c, In c l -> sat (logprob_mem (fst c) f) (prob_ok dlaw (fst c) f)).
    Context (Ck : forall c, In c l -> sat (condition_mem (fst c) f) (cond_ok (fst c) (factor_holds f))).
    Context (Ls : forall c, In c l -> safe (logprob_mem (fst c) f)).
    Context (Cs : forall c, In c l -> (forall w, 0 < den (fst c) (ind (factor_holds f)) w) -> safe (condition_mem (fst c) f)).
    Notation F := (factor_holds f).
    Notation pack c := (logprob_mem (fst c), condition_mem (fst c), snd c).
    Theorem sum_condition_safe : (forall w, 0 < den (SumSPE l) (ind F) w) -> safe (sum_condition (map (fun c => pack c) l) f).
    Proof.
      intros Pos. unfold sum_condition. rewrite mmap_map.
      assert (Sm : forall c, In c l -> sat (mbind (fst (fst (pack c)) f) (fun p => mret (pack c, p))) (fun q => fst q = pack c /\ prob_ok dlaw (fst c) f (snd q))).
      { intros c Hc. apply sat_bind with (P := prob_ok dlaw (fst c) f); [cbn [fst snd]; auto|]. intros p Hp. apply sat_ret. auto. }
      apply safe_bind with (P := Forall2 (fun c q => fst q = pack c /\ prob_ok dlaw (fst c) f (snd q)) l).
      { apply sat_mmap. exact Sm. }
      { apply safe_mmap with (P := fun c q => fst q = pack c /\ prob_ok dlaw (fst c) f (snd q)). intros c Hc. split; [now apply Sm|]. apply safe_bind with (P := prob_ok dlaw (fst c) f); [cbn [fst snd]; auto|cbn [fst snd]; auto|]. intros p _. apply safe_ret. }
      intros ps Hps. pose proof (sum_weights io so po fuel dlaw ident hash f) as Sw.
      assert (Tot : forall w, sumR (map toP (map (fun q => ladd (snd q) (snd (fst q))) (positive ps))) = den (SumSPE l) (ind F) w) by (intros w; exact (Sw l ps w Hps)).
      assert (Np : positive ps <> []).
      { intros Z. specialize (Tot (fun _ => FNum 0)). rewrite Z in Tot. cbn [map sumR fold_right] in Tot. specialize (Pos (fun _ => FNum 0)). lra. }
      enough (G : safe (mbind (mmap (fun q => snd (fst (fst q)) f) (positive ps)) (fun children => lift (do weights <- lognorm (map (fun q => ladd (snd q) (snd (fst q))) (positive ps)); sum_or_one children weights)))).
      { destruct (positive ps); [tauto|exact G]. }
      assert (Pl : Forall (fun c => 0 < toP (snd c)) l) by exact (every_here _ _ Ts).
      assert (Hq : forall q, In q (positive ps) -> 0 < toP (snd q) /\ exists c, In c l /\ fst q = pack c /\ prob_ok dlaw (fst c) f (snd q)).
      { intros q Hq. apply filter_In_pos in Hq. destruct Hq as (Hq & Hp). split; auto. destruct (Forall2_in_r _ _ _ _ _ _ Hps Hq) as (c & Hc & E & K). exists c. auto. }
      assert (Sq : forall q, In q (positive ps) -> sat (snd (fst (fst q)) f) (fun t => exists c, In c l /\ cond_ok (fst c) F t)).
      { intros q H. destruct (Hq q H) as (_ & c & Hc & E & _). rewrite E. cbn [fst snd]. eapply sat_weaken; [now apply Ck|]. intros t Ht. exists c. auto. }
      apply safe_bind with (P := Forall2 (fun _ t => exists c, In c l /\ cond_ok (fst c) F t) (positive ps)).
      { apply sat_mmap. exact Sq. }
      { apply safe_mmap with (P := fun _ t => exists c, In c l /\ cond_ok (fst c) F t). intros q H. split; [now apply Sq|]. destruct (Hq q H) as (Pq & c & Hc & E & K). rewrite E. cbn [fst snd]. apply Cs; auto. intros w. rewrite <- (K w). exact Pq. }
      intros ts Hts. apply safe_lift. set (ps' := map (fun q => ladd (snd q) (snd (fst q))) (positive ps)) in *.
      assert (Ne : ps' <> []) by (unfold ps'; intros K; apply map_eq_nil in K; auto).
      assert (Pp : Forall (fun w => 0 < toP w) ps').
      { unfold ps'. rewrite Forall_map. apply Forall_forall. intros q H. destruct (Hq q H) as (Hp & c & Hc & E0 & _). rewrite ladd_ok, E0. cbn [snd]. apply Rmult_lt_0_compat; auto. rewrite Forall_forall in Pl. auto. }
      destruct (lognorm_total (S:=S) ps' Ne) as (ws & Ew). rewrite Ew. cbn [bind]. destruct (lognorm_pos ps' ws Ne Pp Ew) as (Pw & Tw & Fw).
      assert (Tc : forall d, In d ts -> exists c, In c l /\ cond_ok (fst c) F d).
      { intros d Hd. destruct (Forall2_in_r _ _ _ _ _ _ Hts Hd) as (q & H & K). exact K. }
      assert (Len : List.length ts = List.length ws).
      { apply Forall2_len in Hts, Fw. unfold ps' in Fw. rewrite map_length in Fw. congruence. }
      assert (Tm : exists t, mk_Sum ts ws = Ok t).
      { apply (mk_Sum_total dlaw); auto.
        - intros ->. inversion Hts; auto.
        - apply Forall_forall. intros d Hd. destruct (Tc d Hd) as (c & _ & K). apply K.
        - intros a b x Ha Hb Va. destruct (Tc a Ha) as (c & Hc & _ & Vc & _). destruct (Tc b Hb) as (d & Hd & _ & Vd & _). apply Vd. apply (sum_vars dlaw l d Ws Hd). apply (sum_vars dlaw l c Ws Hc). now apply Vc. }
      unfold sum_or_one. destruct ts as [|t [|t' ts]]; eauto.
    Qed.
  End Sum.

  (** ** Products *)
  Lemma prod_positive : forall (Fk : spe -> asg -> Prop) l w, All wf_spe l -> ForallOrdPairs (apart (D:=D)) l -> (forall k, In k l -> uses (vars k) (ind (Fk k))) ->
    0 < den_prod den l (ind (fun a => forall k, In k l -> Fk k a)) w -> forall k, In k l -> 0 < den k (ind (Fk k)) w.
  Proof.
    intros Fk l w Wl Al Us. induction l as [|k l IH]; intros Pos c Hc; [destruct Hc|]. destruct Wl as (Wk & Wl). inversion Al as [|? ? A1 A2]; subst.
    set (R := fun a => forall c, In c l -> Fk c a) in *.
    assert (Er : ind (fun a => forall c, In c (k :: l) -> Fk c a) = fun a => ind (Fk k) a * ind R a).
    { extensionality a. rewrite <- ind_and. apply ind_eq. unfold R. split; [intros H; split; [apply H; now left|intros; apply H; now right]|intros (H1 & H2) d [<-|Hd]; auto]. }
    rewrite Er in Pos. pose proof (apart_pvars k l A1) as Ap.
    assert (I1 : ignores (pvars l) (ind (Fk k))) by (apply (ignores_sub _ _ (fun x => ~ vars k x)); [intros x Hx K; exact (Ap x K Hx)|apply Us; now left]).
    assert (I2 : ignores (vars k) (ind R)).
    { intros u u' E. apply ind_eq. assert (Eq : forall c, In c l -> (Fk c u <-> Fk c u')).
      { intros d Hd. assert (Ei : ind (Fk d) u = ind (Fk d) u').
        { apply (Us d (or_intror Hd)). intros x Hx. apply E. intros K. rewrite Forall_forall in A1. apply Hx. intros Vc. exact (A1 d Hd x K Vc). }
        unfold ind in Ei. destruct (dec (Fk d u)), (dec (Fk d u')); try tauto; lra. }
      unfold R. split; intros H d Hd; apply Eq; auto. }
    rewrite (prod_split dlaw k l (ind (Fk k)) (ind R) w) in Pos by auto with bnd.
    assert (N1 : 0 <= den k (ind (Fk k)) w) by apply (law_01 (den_kernel dlaw k Wk w)).
    assert (P1 : 0 < den k (ind (Fk k)) w /\ 0 < den_prod den l (ind R) w).
    { set (A := den k (ind (Fk k)) w) in *. set (B := den_prod den l (ind R) w) in *. clearbody A B. destruct N1 as [N1|N1]; [|rewrite <- N1 in Pos; lra]. split; auto. destruct (Rle_or_lt B 0) as [K|K]; auto. nra. }
    destruct Hc as [<-|Hc]; [apply P1|]. apply IH; auto; [|apply P1]. intros d Hd. apply Us. now right.
  Qed.
  Section Product.
    Context (l : list spe) (Wp : wf_spe (ProductSPE l)) (Tp : typed (ProductSPE l)).
    Context (Lk : forall c, In c l -> forall f, good_factor f -> sat (logprob_mem c f) (prob_ok dlaw c f)).
    Context (Ck : forall c, In c l -> forall f, good_factor f -> disjoint f -> sat (condition_mem c f) (cond_ok c (factor_holds f))).
    Context (Ls : forall c, In c l -> forall f, afactor c f -> List.length f = 1%nat -> safe (logprob_mem c f)).
    Context (Cs : forall c, In c l -> forall f, afactor c f -> List.length f = 1%nat -> (forall w, 0 < den c (ind (factor_holds f)) w) -> safe (condition_mem c f)).
    Notation kids := (kids io po fuel ident l).
    Notation restr := (restr (D:=D)).
    Notation s := (ProductSPE l).
    Lemma clause_safe : forall c, afactor s [c] -> (forall w, 0 < den s (ind (clause_holds c)) w) -> safe (condition_clause so (map (fun c => (c, condition_mem c)) l) c).
    Proof.
      intros c Ac Pos. pose proof (afactor_good nominal cuts points s [c] Ac) as Gf. assert (Gc : good_clause c) by (inversion Gf; auto). destruct Ac as (_ & Fa). inversion Fa as [|? ? ((Nc & Cc) & Nd & Vc) _]; subst.
      assert (Pk : forall k, In k l -> forall w, 0 < den k (ind (restr c k)) w).
      { intros k Hk w. destruct Wp as (_ & Wl & Al). apply (prod_positive (restr c) l w Wl Al); auto.
        - intros d Hd. apply (restr_uses nominal l c d Gc Hd).
        - rewrite <- (ind_iff _ (clause_holds c) (fun a => forall k, In k l -> restr c k a)); [exact (Pos w)|]. intros a. apply (known_clause l c a). intros x e Hx. apply (own_vars dlaw); auto. exact (Vc (x, e) Hx). }
      unfold condition_clause. rewrite mmap_map.
      apply safe_mmap with (P := fun _ _ => True). intros k Hk. cbn [fst snd].
      assert (Wk : wf_spe k) by (eapply prod_wf; eauto).
      destruct (filter (fun x => inb String.eqb x (map fst c)) (get_symbols k)) as [|s0 ss] eqn:Ef; [split; [apply sat_ret; auto|apply safe_ret]|]. rewrite <- Ef.
      set (syms := filter (fun x => inb String.eqb x (map fst c)) (get_symbols k)) in *.
      assert (Ssc : sat (lift (mapM (fun x => match lookup x c with Some e => Ok (x, e) | None => Raise KeyError end) (it_str so syms))) (Forall2 (fun x p => exists e, p = (x, e) /\ In (x, e) c) (it_str so syms))).
      { apply sat_lift. intros sc Hsc. apply mapM_Forall2 in Hsc. eapply Forall2_imp; [|exact Hsc]. intros x p _ _ Hp. cbv beta in Hp. destruct (lookup x c) as [e|] eqn:El; [|discriminate]. injection Hp as <-.
        exists e. split; auto. now apply lookup_some. }
      assert (Sin : forall x, In x (it_str so syms) <-> vars k x /\ In x (map fst c)).
      { intros x. split.
        - intros Hx. eapply Permutation_in in Hx; [|symmetry; apply it_str_perm]. unfold syms in Hx. apply filter_In in Hx. destruct Hx as (Hx & Hc). apply inb_string in Hc. split; auto. now apply (get_symbols_vars dlaw).
        - intros (Vx & Hx). eapply Permutation_in; [apply it_str_perm|]. unfold syms. apply filter_In. split; [now apply (get_symbols_vars dlaw)|now apply inb_string]. }
      assert (Ksc : forall sc, Forall2 (fun x p => exists e, p = (x, e) /\ In (x, e) c) (it_str so syms) sc -> afactor k [sc] /\ forall w, factor_holds [sc] w <-> restr c k w).
      { intros sc Hsc. assert (Ek : map fst sc = it_str so syms).
        { clear -Hsc. induction Hsc as [|x p xs sc (e & -> & _) F IH]; [reflexivity|]. cbn. now rewrite IH. }
        assert (In1 : forall p, In p sc -> In p c) by (intros p Hp; destruct (Forall2_in_r _ _ _ _ _ _ Hsc Hp) as (x & _ & e & -> & K); exact K).
        assert (Ns : NoDup syms) by (apply NoDup_filter, (get_symbols_nodup dlaw); auto).
        split.
        - split; [discriminate|]. constructor; [|constructor]. split; [split|split].
          + intros ->. cbn in Ek. assert (K : In s0 (it_str so syms)) by (eapply Permutation_in; [apply it_str_perm|]; rewrite Ef; now left). rewrite <- Ek in K. destruct K.
          + rewrite Forall_forall in *. auto.
          + rewrite Ek. eapply Permutation_NoDup; [apply it_str_perm|exact Ns].
          + intros p Hp. assert (K : In (fst p) (it_str so syms)) by (rewrite <- Ek; now apply in_map). apply Sin in K. apply (own_child dlaw l); auto; apply K.
        - intros w. unfold factor_holds, CondProofs.restr. split.
          + intros (c' & [<-|[]] & H) x e Hx Vx. assert (Hs : In x (it_str so syms)) by (apply Sin; split; auto; apply in_map_iff; exists (x, e); auto).
            destruct (Forall2_in_l _ _ _ _ _ _ Hsc Hs) as (p & Hp & e' & -> & He'). assert (e' = e).
            { clear -Nd Hx He'. induction c as [|(y, u) c IH]; [destruct Hx|]. cbn in Nd. inversion Nd; subst. destruct Hx as [Hx|Hx], He' as [He|He].
              - congruence.
              - injection Hx as -> ->. destruct H1. apply in_map_iff. exists (x, e'). auto.
              - injection He as -> ->. destruct H1. apply in_map_iff. exists (x, e). auto.
              - auto. }
            subst e'. now apply (H x).
          + intros H. exists sc. split; [now left|]. intros x e Hp. apply (H x); [now apply In1|]. assert (Hx : In x (map fst sc)) by (apply in_map_iff; exists (x, e); auto). rewrite Ek in Hx. now apply Sin in Hx. }
      split.
      - eapply sat_bind; [exact Ssc|]. intros sc Hsc. destruct (Ksc sc Hsc) as (Ak & _). eapply sat_weaken; [apply (Ck k Hk [sc]); [now apply (afactor_good nominal cuts points k)|repeat constructor]|]. auto.
      - eapply safe_bind; [exact Ssc| |].
        + apply safe_lift. destruct (mapM_ok _ _ (fun x => match lookup x c with Some e => Ok (x, e) | None => Raise KeyError end) (fun _ _ => True) (it_str so syms)) as (r & -> & _); [|eauto].
          intros x Hx. apply Sin in Hx. destruct (lookup_key _ x c (proj2 Hx)) as (e & ->). eauto.
        + intros sc Hsc. destruct (Ksc sc Hsc) as (Ak & He). apply Cs; auto. intros w. rewrite (ind_iff _ (factor_holds [sc]) (restr c k) He). now apply Pk.
    Qed.

    Context (f : factor) (Af : afactor s f) (Df : disjoint f).
    Notation F := (factor_holds f).
    Theorem product_condition_safe : sat (logprob_mem s f) (prob_ok dlaw s f) -> safe (logprob_mem s f) -> (forall w, 0 < den s (ind F) w) ->
      safe (product_condition io so hash kids (map (fun c => (c, condition_mem c)) l) (logprob_mem s) f).
    Proof.
      intros Self Selfs Pos. pose proof (afactor_good nominal cuts points s f Af) as Gf. unfold product_condition.
      assert (Gc : forall c, In c f -> good_clause c /\ afactor s [c]).
      { intros c Hc. split; [unfold MemoProofs.good_factor in Gf; rewrite Forall_forall in Gf; auto|]. destruct Af as (_ & Fa). split; [discriminate|]. constructor; [|constructor]. rewrite Forall_forall in Fa. now apply Fa. }
      assert (Sc : forall c, In c f -> sat (mbind (logprob_conjunction io kids [c]) (fun p => mret (c, p))) (fun q => fst q = c /\ (forall w, toP (snd q) = den s (ind (clause_holds c)) w) /\ known l c)).
      { intros c Hc. eapply sat_bind; [exact (conj_known io po fuel dlaw ident nominal envof U C2 C3 l Wp Lk c (proj1 (Gc c Hc)))|]. intros p (Hp & Kn). apply sat_ret. auto. }
      apply safe_bind with (P := Forall2 (fun c q => fst q = c /\ (forall w, toP (snd q) = den s (ind (clause_holds c)) w) /\ known l c) f).
      { apply sat_mmap. exact Sc. }
      { apply safe_mmap with (P := fun c q => fst q = c /\ (forall w, toP (snd q) = den s (ind (clause_holds c)) w) /\ known l c). intros c Hc. split; [now apply Sc|].
        eapply safe_bind; [exact (conj_known io po fuel dlaw ident nominal envof U C2 C3 l Wp Lk c (proj1 (Gc c Hc)))| |intros p _; apply safe_ret].
        apply (conjunction_safe io po fuel dlaw ident nominal cuts points U (Forall centry_ok) C2 C3 l Wp Lk Ls [c]). constructor; [|constructor]. split; [apply Gc; auto|]. destruct Af as (_ & Fa). rewrite Forall_forall in Fa. destruct (Fa c Hc) as ((_ & Cc) & _ & Vc).
        apply Forall_forall. intros p Hp. rewrite Forall_forall in Cc. split; auto. }
      intros ps Hps.
      assert (Hps' : Forall2 (fun c q => fst q = c /\ forall w, toP (snd q) = den s (ind (clause_holds c)) w) f ps) by (eapply Forall2_imp; [|exact Hps]; cbv beta; tauto).
      assert (One : forall w, den s (ind F) w = sumR (map (fun c => den s (ind (clause_holds c)) w) f)).
      { intros w. transitivity (den s (fun a => 1 * ind F a) w); [f_equal; extensionality a; ring|]. rewrite (den_clauses dlaw l Wp f Df) by auto with bnd. apply sumR_ext. intros c _. f_equal. extensionality a. ring. }
      assert (All1 : forall w, sumR (map toP (map snd ps)) = den s (ind F) w).
      { intros w. rewrite One. clear -Hps'. induction Hps' as [|c q f ps (_ & Hq) Fq IH]; [reflexivity|]. cbn [map sumR fold_right]. unfold sumR in IH. rewrite IH, (Hq w). reflexivity. }
      assert (Nps : map snd ps <> []). { intros K. apply map_eq_nil in K. subst ps. inversion Hps; subst. destruct Af as (Nf & _). congruence. }
      destruct (lse_ok S (map snd ps) Nps) as (t & Et & Ht).
      apply safe_bind with (P := fun t' => t' = t); [apply sat_lift; congruence|apply safe_lift; eauto|]. intros t' ->.
      eapply safe_bind; [exact Self|exact Selfs|]. intros p Hp.
      assert (Ec : lclose t p = true) by (apply lclose_ok; rewrite Ht, (Hp (fun _ => FNum 0)); apply All1). rewrite Ec.
      apply safe_bind with (P := fun _ => True); [apply sat_lift; auto|apply safe_lift; eexists; reflexivity|]. intros _ _.
      assert (Np : positive ps <> []) by (apply positive_some; rewrite (All1 (fun _ => FNum 0)); apply Pos).
      enough (G : safe (mbind (lift (lognorm (map snd (positive ps)))) (fun weights => mbind (mmap (fun q => condition_clause so (map (fun c => (c, condition_mem c)) l) (fst q)) (positive ps)) (fun childrens =>
        lift (do products <- mapM mk_Product childrens; match products with [u] => Ok u | _ => do u <- mk_Sum products weights; simplify hash u end))))).
      { destruct (positive ps); [tauto|exact G]. }
      assert (Ne : map snd (positive ps) <> []) by (intros K; apply map_eq_nil in K; auto).
      destruct (lognorm_total (S:=S) (map snd (positive ps)) Ne) as (ws & Ew).
      apply safe_bind with (P := fun ws' => ws' = ws); [apply sat_lift; congruence|apply safe_lift; eauto|]. intros ws' ->.
      destruct (lognorm_pos _ ws Ne (positive_all _ ps) Ew) as (Pw & Tw & Fw).
      assert (Hq : forall q, In q (positive ps) -> In (fst q) f /\ (forall w, 0 < den s (ind (clause_holds (fst q))) w) /\ known l (fst q)).
      { intros q H. apply filter_In_pos in H. destruct H as (H & Pq). destruct (Forall2_in_r _ _ _ _ _ _ Hps H) as (c & Hc & <- & K1 & K2). split; auto. split; auto. intros w. now rewrite <- K1. }
      assert (Sq : forall q, In q (positive ps) -> sat (condition_clause so (map (fun c => (c, condition_mem c)) l) (fst q)) (fun ts => Forall2 (fun k t => cond_ok k (restr (fst q) k) t) l ts)).
      { intros q H. apply (clause_children io so po fuel dlaw ident hash nominal envof U C2 C3 l Wp Tp); auto. apply Gc. now apply Hq. }
      apply safe_bind with (P := Forall2 (fun q ts => Forall2 (fun k t => cond_ok k (restr (fst q) k) t) l ts) (positive ps)).
      { apply sat_mmap. exact Sq. }
      { apply safe_mmap with (P := fun q ts => Forall2 (fun k t => cond_ok k (restr (fst q) k) t) l ts). intros q H. split; [now apply Sq|]. destruct (Hq q H) as (Hin & Pq & _). apply clause_safe; auto. now apply Gc. }
      intros chs Hchs. apply safe_lift.
      destruct (mapM_ok _ _ (mk_Product (D:=D)) (fun ts t => mk_Product ts = Ok t) chs) as (prods & Ep & Fp).
      { intros ts Hts. destruct (Forall2_in_r _ _ _ _ _ _ Hchs Hts) as (q & _ & Fk). destruct Wp as (Nl & Wl & Al).
        destruct (mk_Product_total dlaw ts) as (t1 & E1); [| | |eauto].
        - intros ->. inversion Fk; subst. congruence.
        - apply Forall_forall. intros d Hd. destruct (Forall2_in_r _ _ _ _ _ _ Fk Hd) as (k & _ & K). apply K.
        - eapply FOP_Forall2; [exact Fk| |exact Al]. intros a b a' b' (_ & Va & _) (_ & Vb & _) Ap x Hx Hy. apply (Ap x); [now apply Va|now apply Vb]. }
      rewrite Ep. cbn [bind].
      assert (Hp2 : Forall2 (fun q t => cond_ok s (clause_holds (fst q)) t /\ is_product t = true) (positive ps) prods).
      { assert (Hin : forall q, In q (positive ps) -> good_clause (fst q) /\ known l (fst q)).
        { intros q H. destruct (Hq q H) as (Hin & _ & Kn). split; auto. now apply Gc. }
        clear -Wp Tp Lk Ck Hin Hchs Fp. revert prods Fp Hin. induction Hchs as [|q ts qs chs K Fq IH]; intros prods E Hin; inversion E as [|? t ? prods' Et E']; subst; constructor.
        - destruct (Hin q (or_introl eq_refl)) as (Gq & Kq). split; [now apply (clause_product dlaw hash nominal envof l Wp (fst q) ts)|]. unfold mk_Product in Et. inv_bind Et. destruct r; [|discriminate]. injection Et as <-. reflexivity.
        - apply IH; auto. intros q' H. apply Hin. now right. }
      assert (Wt : Forall wf_spe prods) by (apply Forall_forall; intros d Hd; destruct (Forall2_in_r _ _ _ _ _ _ Hp2 Hd) as (q & _ & K & _); apply K).
      assert (Tt : Forall typed prods) by (apply Forall_forall; intros d Hd; destruct (Forall2_in_r _ _ _ _ _ _ Hp2 Hd) as (q & _ & K & _); apply K).
      assert (Vp : forall d, In d prods -> forall x, vars d x <-> vars s x) by (intros d Hd; destruct (Forall2_in_r _ _ _ _ _ _ Hp2 Hd) as (q & _ & K & _); apply K).
      assert (Len : List.length prods = List.length ws).
      { apply Forall2_len in Hp2, Fw. rewrite map_length in Fw. congruence. }
      assert (Npr : prods <> []) by (intros ->; inversion Hp2; auto).
      enough (G : exists a, (do s0 <- mk_Sum prods ws; simplify hash s0) = Ok a) by (destruct prods as [|d [|d' prods]]; [tauto|eauto|exact G]).
      destruct (mk_Sum_total dlaw prods ws Npr Len Wt Tw) as (u & Eu). { intros a b x Ha Hb Va. apply (Vp b Hb). now apply (Vp a Ha). }
      rewrite Eu. cbn [bind].
      destruct (mk_Sum_ok dlaw prods ws u Wt Eu Tw) as (_ & Wu & (m & ->) & Vu & Du).
      assert (Tu : typed (SumSPE m)) by (apply (mk_Sum_every part_ok True (part_sum nominal envof) prods ws); auto).
      pose proof (mk_Sum_terms prods ws _ Eu) as Em. injection Em as Em.
      assert (Pm : forall c, In c m -> is_product (fst c) = true).
      { intros c Hc. rewrite Em in Hc. apply in_concat in Hc. destruct Hc as (m' & Hm & Hc). apply in_map_iff in Hm. destruct Hm as ((b, wb) & <- & Hb). cbn [fst snd] in Hc. apply in_combine_l in Hb.
        destruct (Forall2_in_r _ _ _ _ _ _ Hp2 Hb) as (q & _ & _ & Ib). destruct b; try discriminate. cbn [sum_terms] in Hc. destruct Hc as [<-|[]]. reflexivity. }
      assert (Pw' : Forall (fun c => 0 < toP (snd c)) m) by exact (every_here _ _ Tu).
      clear Em. destruct m as [|(c, wc) m]; [apply sum_nonempty in Wu; tauto|]. cbn [simplify simplify_sum]. pose proof (Pm _ (or_introl eq_refl)) as Ic. cbn [fst] in Ic. replace (is_leaf c) with false by (destruct c; try discriminate; reflexivity). rewrite Ic.
      apply (simplify_product_total dlaw Ed envof part_ok (part_aenv nominal envof) True (part_sum nominal envof) (part_prod nominal envof) ((c, wc) :: m) Wu Tu).
      intros c0 m0 Ec0. injection Ec0 as <- <-. now inversion Pw'.
    Qed.
  End Product.

  Lemma afactor_child : forall l f c, wf_spe (SumSPE l) -> In c l -> afactor (SumSPE l) f -> afactor (fst c) f.
  Proof.
    intros l f c W Hc (Nf & F). split; auto. eapply Forall_impl; [|exact F]. intros cl (C & Nd & V). split; auto. split; auto. intros p Hp. specialize (V p Hp). exact (SpeFacts.All_In _ _ _ c V Hc).
  Qed.
  Theorem condition_mem_safe : forall s, U s -> wf_spe s -> typed s -> forall many, open_leaves many s -> forall f, ready (factor_holds f) many s -> afactor s f -> disjoint f -> (many = false -> List.length f = 1%nat) ->
    (forall w, 0 < den s (ind (factor_holds f)) w) -> safe (condition_mem s f).
  Proof.
    assert (Lp : forall s, U s -> wf_spe s -> typed s -> forall f, good_factor f -> sat (logprob_mem s f) (prob_ok dlaw s f)).
    { intros s Us W T f G. apply logprob_mem_ok with (nominal := nominal); auto. now apply (typed_atoms nominal envof). }
    assert (Cm : forall s, U s -> wf_spe s -> typed s -> forall f, good_factor f -> disjoint f -> sat (condition_mem s f) (cond_ok s (factor_holds f))).
    { intros s Us W T f G Df. now apply (condition_mem_ok io so po fuel dlaw Ed ident hash nominal envof U Uc C2 C3). }
    assert (Ms : forall s, U s -> wf_spe s -> forall many, open_leaves many s -> forall f, afactor s f -> (many = false -> List.length f = 1%nat) -> safe (logprob_mem s f)).
    { intros s Us W many O f A L. now apply (mem_safe io po fuel dlaw ident nominal cuts points Hf U Uc (Forall centry_ok) C2 C3 s Us W many). }
    induction s using spe_ind'; intros Us W T many O f St A Df L Pos; cbn [Spe.condition_mem]; apply memo_condition_safe.
    - apply safe_lift. apply (leaf_factor_condition io po fuel dlaw nominal cuts points _ many f (fun _ => FNum 0)); auto.
    - apply safe_lift. apply (leaf_factor_condition io po fuel dlaw nominal cuts points _ many f (fun _ => FNum 0)); auto.
    - apply safe_lift. apply (leaf_factor_condition io po fuel dlaw nominal cuts points _ many f (fun _ => FNum 0)); auto.
    - assert (Kc : forall c, In c l -> U (fst c) /\ wf_spe (fst c) /\ typed (fst c) /\ open_leaves many (fst c) /\ ready (factor_holds f) many (fst c) /\ afactor (fst c) f).
      { intros c Hc. split; [eapply (proj1 Uc); eauto|]. split; [eapply sum_wf; eauto|]. split; [eapply every_sum; eauto|]. split; [exact (SpeFacts.All_In _ _ _ _ O Hc)|]. split; [exact (SpeFacts.All_In _ _ _ _ St Hc)|]. now apply (afactor_child l). }
      pose proof (afactor_good nominal cuts points _ f A) as Gf.
      apply (sum_condition_safe l W T f); auto; intros c Hc; destruct (Kc c Hc) as (Uk & Wk & Tk & Ok' & Sk & Ak); eauto.
    - assert (Kc : forall c, In c l -> U c /\ wf_spe c /\ typed c /\ open_leaves false c /\ ready (factor_holds f) false c).
      { intros c Hc. split; [eapply (proj1 (proj2 Uc)); eauto|]. split; [eapply prod_wf; eauto|]. split; [eapply every_prod; eauto|]. split; [exact (SpeFacts.All_In _ _ _ _ O Hc)|exact (SpeFacts.All_In _ _ _ _ St Hc)]. }
      pose proof (afactor_good nominal cuts points _ f A) as Gf.
      apply (product_condition_safe l W T); auto.
      + intros c Hc g Gg. destruct (Kc c Hc) as (? & ? & ? & _). auto.
      + intros c Hc g Gg Dg. destruct (Kc c Hc) as (? & ? & ? & _). auto.
      + intros c Hc g Ag Lg. destruct (Kc c Hc) as (? & ? & ? & ? & _). apply (Ms c) with (many := false); auto.
      + intros c Hc g Ag Lg Pg. destruct (Kc c Hc) as (? & ? & ? & ? & ?). apply (H c Hc) with (many := false); auto; [now apply (ready_false cuts points (factor_holds f))|]. destruct g as [|g0 [|]]; try discriminate. repeat constructor.
      + apply (Ms (ProductSPE l) Us W many); auto.
  Qed.
End Branches.
