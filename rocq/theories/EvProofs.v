(** Operators on events: Boolean operations, comparisons, disjunctive normal form. *)
From Coq Require Import List Bool String Reals Lra Lia ZArith Classical.
From Verif Require Import Base Num Sets SetSpec SetIv SetProofs SetIvOr SetOr SetOps SetAlg SetBuilt
  Poly Trans TransSpec TransFacts PolyProofs InvProofs InvMain.
Import ListNotations.
Local Open Scope R_scope.

Lemma or_false_r' : forall P : Prop, P \/ False <-> P. Proof. tauto. Qed.

Section Ev.
  Context {N : numsys} (io : iterorder N).
  Notation enum := (ext (num N)).
  Notation num := (num N).
  Notation tr := (tr N).
  Notation pset := (pset N).
  Implicit Types w : asg.

  (** ** Equality of transforms *)

  Lemma Rpoly_eqb : forall (cs ds : list num) x, list_eqb neqb cs ds = true -> Rpoly cs x = Rpoly ds x.
  Proof.
    induction cs as [|c cs IH]; intros [|d ds] x H; simpl in H; try discriminate; auto.
    apply andb_true_iff in H. destruct H as (H1 & H2). apply neqb_ok in H1. simpl. now rewrite H1, (IH ds).
  Qed.
  Lemma truth_iff : forall P Q : Prop, (P <-> Q) -> truth P = truth Q.
  Proof. intros P Q H. unfold truth. destruct (dec P), (dec Q); tauto. Qed.

  Lemma teqb_teval : forall (s t : tr) w, teqb s t = true -> teval s w = teval t w.
  Proof.
    induction s using tr_ind'; intros u w E; destruct u; simpl in E; try discriminate.
    - apply String.eqb_eq in E. now subst.
    - apply andb_true_iff in E. destruct E as (E1 & E2). apply Pos.eqb_eq in E2. subst. simpl. now rewrite (IHs u).
    - apply andb_true_iff in E. destruct E as (E1 & E2). apply neqb_ok in E2. simpl. now rewrite (IHs u), E2.
    - apply andb_true_iff in E. destruct E as (E1 & E2). apply neqb_ok in E2. simpl. now rewrite (IHs u), E2.
    - simpl. now rewrite (IHs u).
    - simpl. now rewrite (IHs u).
    - apply andb_true_iff in E. destruct E as (E1 & E2). simpl. rewrite (IHs u w E1).
      destruct (teval u w) as [[x|]|]; simpl; auto. now rewrite (Rpoly_eqb cs coeffs x E2).
    - simpl. f_equal. revert l0 E. induction H as [|p l (Hp1 & Hp2) H IH]; intros [|q m] E; try discriminate; auto.
      + destruct p. discriminate.
      + destruct p as (a, e), q as (b, f). apply andb_true_iff in E. destruct E as (E1 & E2).
        apply andb_true_iff in E1. destruct E1 as (E0 & E1). simpl in *.
        rewrite (Hp1 b w E0), (Hp2 f w E1). f_equal. now apply IH.
    - apply andb_true_iff in E. destruct E as (E1 & E2). apply andb_true_iff in E1. destruct E1 as (E0 & E1).
      simpl. rewrite (IHs u w E2).
      assert (K : k = k0) by (destruct k, k0; simpl in E0; congruence). subst k0.
      pose proof (peqb_mem _ _ E1) as M. destruct k, (teval u w) as [[]|]; auto; apply truth_iff, M.
    - simpl. f_equal. revert l0 E. induction H as [|p l Hp H IH]; intros [|q m] E; try discriminate; auto.
      apply andb_true_iff in E. destruct E as (E1 & E2). simpl. rewrite (Hp q w E1). f_equal. now apply IH.
    - simpl. f_equal. revert l0 E. induction H as [|p l Hp H IH]; intros [|q m] E; try discriminate; auto.
      apply andb_true_iff in E. destruct E as (E1 & E2). simpl. rewrite (Hp q w E1). f_equal. now apply IH.
  Qed.

  Lemma nonempty_mem : forall s : pset, wf s -> s <> PEmpty -> exists v, mem v s.
  Proof.
    intros [|b|u] W H; [tauto|now apply b_inhabited|].
    destruct W as (W & L & _). destruct u as [|b u]; [simpl in L; lia|].
    inversion W; subst. destruct (b_inhabited b) as (v & Hv); auto. exists v, b. simpl; auto.
  Qed.

  (** ** Good events *)

  Lemma gev_list : forall l : list tr, Forall gev l <-> All (fun e => good e /\ is_event e = true) l.
  Proof. intros l. now rewrite All_Forall. Qed.
  Lemma EventOr_ok : forall l e, Forall gev l -> EventOr (N:=N) l = Ok e -> e = EOr l /\ gev e.
  Proof.
    intros l e F H. unfold EventOr, compound_ok in H. inv_bind H. inv_bind E. injection H as <-.
    split; auto. split; auto. simpl. split; [destruct l; [discriminate|congruence]|now apply gev_list].
  Qed.
  Lemma EventAnd_ok : forall l e, Forall gev l -> EventAnd (N:=N) l = Ok e -> e = EAnd l /\ gev e.
  Proof.
    intros l e F H. unfold EventAnd, compound_ok in H. inv_bind H. inv_bind E. injection H as <-.
    split; auto. split; auto. simpl. split; [destruct l; [discriminate|congruence]|now apply gev_list].
  Qed.
  Lemma EventOr_total : forall l, l <> [] -> Forall gev l -> EventOr (N:=N) l = Ok (EOr l).
  Proof.
    intros l Ne F. unfold EventOr, compound_ok. replace (forallb is_event l) with true; [destruct l; [tauto|reflexivity]|].
    symmetry. apply forallb_forall. rewrite Forall_forall in F. intros x Hx. now apply F.
  Qed.
  Lemma EventAnd_total : forall l, l <> [] -> Forall gev l -> EventAnd (N:=N) l = Ok (EAnd l).
  Proof.
    intros l Ne F. unfold EventAnd, compound_ok. replace (forallb is_event l) with true; [destruct l; [tauto|reflexivity]|].
    symmetry. apply forallb_forall. rewrite Forall_forall in F. intros x Hx. now apply F.
  Qed.
  Lemma gev_or : forall l : list tr, gev (EOr l) -> l <> [] /\ Forall gev l.
  Proof. intros l (G & _). simpl in G. now rewrite gev_list. Qed.
  Lemma gev_and : forall l : list tr, gev (EAnd l) -> l <> [] /\ Forall gev l.
  Proof. intros l (G & _). simpl in G. now rewrite gev_list. Qed.

  Lemma gev_wf : forall k (t : tr) v, gev (EBasic k t v) -> good t /\ wf v /\
    match k with
    | KNom => v = PEmpty \/ nominal_set v
    | KInt => exists i, v = PB (BInt i)
    | KReal => v = PEmpty \/ exists vs, v = PB (BReal vs)
    end /\ realv t.
  Proof. intros k t v (G & _). destruct k; simpl in G; ands; try tauto. Qed.
  Lemma fm_nom : forall s x, nominal_set s -> ~ fm (N:=N) (FNum x) s.
  Proof. intros [|[]|] x; simpl; try tauto; intros _ H; exact H. Qed.

  (** membership forces the right sort *)
  Lemma gev_typed : forall k (t : tr) v y, gev (EBasic k t v) -> fm y v -> typed k y.
  Proof.
    intros k t v y G Hy. apply gev_wf in G. destruct G as (_ & _ & G & _).
    destruct k, y as [x|str]; simpl; auto.
    - destruct G as (i & ->). exact Hy.
    - destruct G as [->|(vs & ->)]; exact Hy.
    - destruct G as [->|G]; [exact Hy|now apply (fm_nom v x)].
  Qed.
  Lemma holds_gev : forall k (t : tr) v w, gev (EBasic k t v) ->
    (holds (EBasic k t v) w <-> exists y, teval t w = Some y /\ fm y v).
  Proof.
    intros k t v w G. rewrite holds_basic. split.
    - intros (y & A & _ & B). eauto.
    - intros (y & A & B). exists y. ands; auto. eapply gev_typed; eauto.
  Qed.

  (** ** Conjunction and disjunction *)

  Lemma event_of_set_ok : forall k (t : tr) v i e, gev (EBasic k t v) -> wf i ->
    event_of_set t i = Some e -> gev e /\ forall w, holds e w <-> exists y, teval t w = Some y /\ fm y i.
  Proof.
    intros k t v i e G W E. apply gev_wf in G. destruct G as (Gt & _ & _ & Rt).
    assert (K : gev e -> (exists j, e = EBasic j t i) -> gev e /\ forall w, holds e w <-> exists y, teval t w = Some y /\ fm y i).
    { intros Ge (j & ->). split; auto. intros w. now apply holds_gev. }
    destruct i as [|[]|]; simpl in E; try discriminate; injection E as <-; apply K; eauto; split; auto; simpl; ands; eauto; apply W.
  Qed.

  Lemma ev_and_ok : forall a b e, gev a -> gev b -> ev_and io a b = Ok e ->
    gev e /\ forall w, holds e w <-> holds a w /\ holds b w.
  Proof.
    intros a b e Ga Gb H.
    assert (AndL : forall l e, Forall gev l -> EventAnd (N:=N) l = Ok e ->
      gev e /\ forall w, holds e w <-> Forall (fun x => holds x w) l).
    { clear. intros l e F E. apply EventAnd_ok in E; auto. destruct E as (-> & G). split; auto.
      intros w. now rewrite holds_and, Forall_forall. }
    assert (Bin : EventAnd (N:=N) [a; b] = Ok e -> gev e /\ forall w, holds e w <-> holds a w /\ holds b w).
    { intros E. apply AndL in E; [|auto using Forall_cons, Forall_nil]. destruct E as (G & E). split; auto. intros w. rewrite E, !Forall_cons_iff.
      split; [tauto|]. intros (H1 & H2). ands; auto using Forall_nil. }
    destruct a as [| | | | | | | |k s v|l|l], b as [| | | | | | | |j t u|m|m]; simpl in H; try discriminate H; try (now apply Bin).
    - destruct (teqb t s) eqn:Et; [|now apply Bin]. inv_bind H.
      pose proof (gev_wf _ _ _ Ga) as (_ & Wv & _). pose proof (gev_wf _ _ _ Gb) as (_ & Wu & _).
      apply pand_f in E; auto. destruct E as (A & B & _).
      destruct (event_of_set s r) as [e'|] eqn:Ee; [|now apply Bin]. injection H as <-.
      destruct (event_of_set_ok _ _ _ _ _ Ga A Ee) as (Ge & He). split; auto.
      intros w. rewrite He, (holds_gev _ _ _ _ Ga), (holds_gev _ _ _ _ Gb), (teqb_teval t s w Et). split.
      + intros (y & H1 & H2). apply B in H2. split; exists y; tauto.
      + intros ((y & H1 & H2) & (z & H3 & H4)). rewrite H1 in H3. injection H3 as <-. exists y. split; auto. now apply B.
    - apply AndL in H; [|constructor; [auto|now apply gev_and]]. destruct H as (G & H). split; auto. intros w. rewrite H, holds_and.
      rewrite Forall_cons_iff, Forall_forall. reflexivity.
    - apply AndL in H; [|constructor; [auto|now apply gev_and]]. destruct H as (G & H). split; auto. intros w. rewrite H, (holds_and m).
      rewrite Forall_cons_iff, Forall_forall. reflexivity.
    - apply AndL in H; [|apply Forall_app; split; [now apply gev_and|auto]]. destruct H as (G & H). split; auto. intros w. rewrite H, holds_and.
      rewrite Forall_app, Forall_forall. split; [intros (H1 & H2); inversion H2; auto|intros (H1 & H2); auto].
    - apply AndL in H; [|apply Forall_app; split; [now apply gev_and|auto]]. destruct H as (G & H). split; auto. intros w. rewrite H, holds_and.
      rewrite Forall_app, Forall_forall. split; [intros (H1 & H2); inversion H2; auto|intros (H1 & H2); auto].
    - apply AndL in H; [|apply Forall_app; split; now apply gev_and]. destruct H as (G & H). split; auto. intros w. rewrite H, !holds_and.
      now rewrite Forall_app, !Forall_forall.
  Qed.

  Lemma ev_or_ok : forall a b e, gev a -> gev b -> ev_or io a b = Ok e ->
    gev e /\ forall w, holds e w <-> holds a w \/ holds b w.
  Proof.
    intros a b e Ga Gb H.
    assert (OrL : forall l e, Forall gev l -> EventOr (N:=N) l = Ok e ->
      gev e /\ forall w, holds e w <-> Exists (fun x => holds x w) l).
    { clear. intros l e F E. apply EventOr_ok in E; auto. destruct E as (-> & G). split; auto.
      intros w. now rewrite holds_or, Exists_exists. }
    assert (Bin : EventOr (N:=N) [a; b] = Ok e -> gev e /\ forall w, holds e w <-> holds a w \/ holds b w).
    { intros E. apply OrL in E; [|auto using Forall_cons, Forall_nil]. destruct E as (G & E). split; auto. intros w. rewrite E.
      rewrite !Exists_cons, Exists_nil. tauto. }
    destruct a as [| | | | | | | |k s v|l|l], b as [| | | | | | | |j t u|m|m]; simpl in H; try discriminate H; try (now apply Bin).
    - destruct (teqb t s) eqn:Et; [|now apply Bin]. inv_bind H.
      pose proof (gev_wf _ _ _ Ga) as (_ & Wv & _). pose proof (gev_wf _ _ _ Gb) as (_ & Wu & _).
      apply por_f in E; auto. destruct E as (A & B & _).
      destruct (event_of_set s r) as [e'|] eqn:Ee; [|now apply Bin]. injection H as <-.
      destruct (event_of_set_ok _ _ _ _ _ Ga A Ee) as (Ge & He). split; auto.
      intros w. rewrite He, (holds_gev _ _ _ _ Ga), (holds_gev _ _ _ _ Gb), (teqb_teval t s w Et). split.
      + intros (y & H1 & H2). apply B in H2. destruct H2; eauto.
      + intros [(y & H1 & H2)|(y & H1 & H2)]; exists y; split; auto; apply B; auto.
    - apply OrL in H; [|constructor; [auto|now apply gev_or]]. destruct H as (G & H). split; auto. intros w. rewrite H, holds_or.
      now rewrite Exists_cons, Exists_exists.
    - apply OrL in H; [|apply Forall_app; split; [now apply gev_or|auto]]. destruct H as (G & H). split; auto. intros w. rewrite H, holds_or.
      now rewrite Exists_app, Exists_cons, Exists_nil, Exists_exists, or_false_r'.
    - apply OrL in H; [|apply Forall_app; split; now apply gev_or]. destruct H as (G & H). split; auto. intros w. rewrite H, !holds_or.
      now rewrite Exists_app, !Exists_exists.
    - apply OrL in H; [|apply Forall_app; split; [now apply gev_or|auto]]. destruct H as (G & H). split; auto. intros w. rewrite H, (holds_or l).
      now rewrite Exists_app, Exists_cons, Exists_nil, Exists_exists, or_false_r'.
    - apply OrL in H; [|constructor; [auto|now apply gev_or]]. destruct H as (G & H). split; auto. intros w. rewrite H, (holds_or m).
      now rewrite Exists_cons, Exists_exists.
  Qed.

  (** ** When events are false *)

  Lemma fails_or : forall (l : list tr) w, fails (EOr l) w <-> forall e, In e l -> fails e w.
  Proof.
    intros l w. unfold fails. simpl. rewrite kor_zero. split.
    - intros H e He. apply H, in_map_iff. eauto.
    - intros H o Ho. apply in_map_iff in Ho. destruct Ho as (e & <- & He). auto.
  Qed.
  Lemma fails_and : forall (l : list tr) w, fails (EAnd l) w <-> exists e, In e l /\ fails e w.
  Proof.
    intros l w. unfold fails. simpl. rewrite kand_zero, in_map_iff. split; intros (e & H1 & H2); eauto.
  Qed.
  Lemma fails_basic : forall k (t : tr) s w,
    fails (EBasic k t s) w <-> exists y, teval t w = Some y /\ typed k y /\ ~ fm y s.
  Proof.
    intros k t s w. unfold fails. simpl. destruct (teval t w) as [y|].
    - assert (G : typed k y -> (truth (fm y s) = zero <-> exists z, Some y = Some z /\ typed k z /\ ~ fm z s)).
      { intros T. rewrite truth_zero. split; [eauto|]. intros (z & [= <-] & _ & H). auto. }
      assert (B : ~ typed k y -> ((None : option fval) = zero <-> exists z, Some y = Some z /\ typed k z /\ ~ fm z s)).
      { intros T. split; [discriminate|]. intros (z & [= <-] & H & _). tauto. }
      destruct k, y; first [exact (G I)|exact (B (fun x => x))].
    - split; [now destruct k|]. intros (z & E & _). discriminate.
  Qed.
  Lemma not_both : forall (e : tr) w, holds e w -> fails e w -> False.
  Proof. unfold holds, fails. intros e w -> H. now apply one_zero in H. Qed.
  Lemma defined_cases : forall (e : tr) w, is_event e = true -> teval e w <> None -> holds e w \/ fails e w.
  Proof.
    intros e w I D. destruct (teval e w) as [v|] eqn:E; [|tauto]. unfold holds, fails, one, zero.
    rewrite E. destruct (event_bit e w v I E) as [->| ->]; auto.
  Qed.


  Lemma ev_and_fails : forall a b e, gev a -> gev b -> ev_and io a b = Ok e -> nonvoid e ->
    forall w, fails e w <-> fails a w \/ fails b w.
  Proof.
    intros a b e Ga Gb H Nv w.
    assert (AndL : forall l e, EventAnd (N:=N) l = Ok e -> (fails e w <-> Exists (fun x => fails x w) l)).
    { clear. intros l e E. unfold EventAnd in E. inv_bind E. injection E as <-. now rewrite fails_and, Exists_exists. }
    assert (Bin : EventAnd (N:=N) [a; b] = Ok e -> (fails e w <-> fails a w \/ fails b w)).
    { intros E. apply AndL in E. rewrite E, !Exists_cons, Exists_nil. tauto. }
    destruct a as [| | | | | | | |k s v|l|l], b as [| | | | | | | |j t u|m|m]; simpl in H; try discriminate H; try (now apply Bin).
    - destruct (teqb t s) eqn:Et; [|now apply Bin]. inv_bind H.
      pose proof (gev_wf _ _ _ Ga) as (_ & Wv & Kv & _). pose proof (gev_wf _ _ _ Gb) as (_ & Wu & Ku & _).
      pose proof E as E0. apply pand_f in E; auto. destruct E as (A & B & C & D).
      destruct (event_of_set s r) as [e'|] eqn:Ee; [|now apply Bin]. injection H as <-.
      assert (Sort : exists i, e' = EBasic i s r /\ r <> PEmpty /\ forall y, (typed i y <-> typed k y) /\ (typed i y <-> typed j y)).
      { assert (Ne : r <> PEmpty -> exists v0, mem v0 r).
        { intros Hr. now apply nonempty_mem. }
        assert (RS : forall k0 v0, match k0 with KNom => v0 = PEmpty \/ nominal_set (N:=N) v0 | KInt => exists i, v0 = PB (BInt i)
             | KReal => v0 = PEmpty \/ exists vs, v0 = PB (BReal vs) end -> forall q, mem q v0 -> match q with RStr _ => k0 = KNom | RNum _ => k0 <> KNom end).
        { intros k0 v0 K0 q Hq. destruct k0.
          - destruct K0 as (i & ->). destruct q; [discriminate|destruct Hq].
          - destruct K0 as [->|(vs & ->)]; [destruct Hq|]. destruct q; [discriminate|destruct Hq].
          - destruct K0 as [->|K0]; [destruct Hq|]. destruct v0 as [|[]|]; simpl in K0; try tauto. destruct q; [destruct Hq|auto]. }
        assert (Hr : r <> PEmpty) by (intros ->; simpl in Ee; injection Ee as <-; exact Nv).
        destruct (Ne Hr) as (q & Hq). destruct (D q Hq) as (Q1 & Q2).
        pose proof (RS k v Kv q Q1) as R1. pose proof (RS j u Ku q Q2) as R2.
        destruct r as [|[vs f|vs|i]|]; simpl in Ee; try discriminate; try tauto; injection Ee as <-; eexists; ands; eauto;
          intros y; destruct q; try (now destruct Hq); destruct k, j, y; simpl; try tauto; try discriminate. }
      destruct Sort as (i & -> & _ & Ty). rewrite !fails_basic, (teqb_teval t s w Et). split.
      + intros (y & H1 & H2 & H3). rewrite B in H3. destruct (Ty y) as (T1 & T2).
        destruct (classic (fm y v)); [right|left]; exists y; ands; tauto.
      + intros [(y & H1 & H2 & H3)|(y & H1 & H2 & H3)]; exists y; destruct (Ty y); ands; auto; try tauto; rewrite B; tauto.
    - apply AndL in H. now rewrite H, Exists_cons, fails_and, Exists_exists.
    - apply AndL in H. now rewrite H, Exists_cons, fails_and, Exists_exists.
    - apply AndL in H. now rewrite H, Exists_app, Exists_cons, Exists_nil, or_false_r', fails_and, Exists_exists.
    - apply AndL in H. now rewrite H, Exists_app, Exists_cons, Exists_nil, or_false_r', fails_and, Exists_exists.
    - apply AndL in H. now rewrite H, Exists_app, !fails_and, !Exists_exists.
  Qed.


  Lemma ev_or_fails : forall a b e, gev a -> gev b -> nonvoid a -> nonvoid b -> same_sort a b -> ev_or io a b = Ok e ->
    forall w, fails e w <-> fails a w /\ fails b w.
  Proof.
    intros a b e Ga Gb Na Nb SS H w.
    assert (OrL : forall l e, EventOr (N:=N) l = Ok e -> (fails e w <-> Forall (fun x => fails x w) l)).
    { clear. intros l e E. unfold EventOr in E. inv_bind E. injection E as <-. now rewrite fails_or, Forall_forall. }
    assert (Bin : EventOr (N:=N) [a; b] = Ok e -> (fails e w <-> fails a w /\ fails b w)).
    { intros E. apply OrL in E. rewrite E, !Forall_cons_iff. split; [tauto|]. intros (H1 & H2). ands; auto using Forall_nil. }
    destruct a as [| | | | | | | |k s v|l|l], b as [| | | | | | | |j t u|m|m]; simpl in H; try discriminate H; try (now apply Bin).
    - destruct (teqb t s) eqn:Et; [|now apply Bin]. inv_bind H.
      pose proof (gev_wf _ _ _ Ga) as (_ & Wv & Kv & _). pose proof (gev_wf _ _ _ Gb) as (_ & Wu & Ku & _).
      apply por_f in E; auto. destruct E as (A & B & C & D).
      destruct (event_of_set s r) as [e'|] eqn:Ee; [|now apply Bin]. injection H as <-.
      assert (Sort : exists i, e' = EBasic i s r /\ (i = KNom <-> k = KNom)).
      { assert (Sk : forall str, fm (FStr str) r -> k = KNom).
        { intros str Hs. apply B in Hs. simpl in SS. destruct Hs as [Hs|Hs].
          - apply (gev_typed _ _ _ _ Ga) in Hs. destruct k; simpl in Hs; tauto.
          - apply (gev_typed _ _ _ _ Gb) in Hs. destruct j; simpl in Hs; tauto. }
        assert (Kn : k = KNom -> exists str, fm (FStr str) r).
        { intros ->. destruct Kv as [->|Kv]; [destruct Na|]. destruct v as [|[vs f| |]|]; simpl in Kv; try tauto.
          destruct (nonempty_mem (PB (BNom vs f)) Wv) as (q & Hq); [discriminate|].
          destruct q as [x|str]; [destruct Hq|]. exists str. apply B. left. exact Hq. }
        destruct r as [|[vs f|vs|i]|]; simpl in Ee; try discriminate; injection Ee as <-; eexists; split; eauto.
        - split; [discriminate|]. intros Hk. destruct (Kn Hk) as (str & []).
        - split; [|auto]. intros _. destruct (nonempty_mem (PB (BNom vs f)) A) as (q & Hq); [discriminate|].
          destruct q as [x|str]; [destruct Hq|]. now apply (Sk str).
        - split; [discriminate|]. intros Hk. destruct (Kn Hk) as (str & []).
        - split; [discriminate|]. intros Hk. destruct (Kn Hk) as (str & []). }
      destruct Sort as (i & -> & Ik). simpl in SS.
      assert (Ty : forall y, (typed i y <-> typed k y) /\ (typed i y <-> typed j y)).
      { intros y. destruct i, k, j, y; simpl; try tauto; exfalso; destruct Ik as (I1 & I2), SS as (S1 & S2);
          first [discriminate (I1 eq_refl)|discriminate (I2 eq_refl)|discriminate (S1 eq_refl)|discriminate (S2 eq_refl)]. }
      rewrite !fails_basic, (teqb_teval t s w Et). split.
      + intros (y & H1 & H2 & H3). rewrite B in H3. destruct (Ty y) as (T1 & T2). split; exists y; ands; tauto.
      + intros ((y & H1 & H2 & H3) & (z & H4 & H5 & H6)). rewrite H1 in H4. injection H4 as <-.
        exists y. destruct (Ty y); ands; auto; try tauto; rewrite B; tauto.
    - apply OrL in H. now rewrite H, Forall_cons_iff, fails_or, Forall_forall.
    - apply OrL in H. rewrite H, Forall_app, Forall_cons_iff, fails_or, Forall_forall. intuition auto using Forall_nil.
    - apply OrL in H. now rewrite H, Forall_app, !fails_or, !Forall_forall.
    - apply OrL in H. rewrite H, Forall_app, Forall_cons_iff, (fails_or l), Forall_forall. intuition auto using Forall_nil.
    - apply OrL in H. now rewrite H, Forall_cons_iff, (fails_or m), Forall_forall.
  Qed.

  (** ** Negation *)

  Lemma EventInterval_ok : forall t v e, good t -> realv t -> wf v -> EventInterval (N:=N) t v = Ok e ->
    e = EBasic KInt t v /\ gev e.
  Proof.
    intros t v e Gt Rt W H. destruct v as [|[]|]; try discriminate. injection H as <-. split; auto.
    split; auto. simpl. ands; eauto.
  Qed.
  Lemma EventFiniteReal_ok : forall t v e, good t -> realv t -> wf v -> EventFiniteReal (N:=N) t v = Ok e ->
    e = EBasic KReal t v /\ gev e.
  Proof.
    intros t v e Gt Rt W H. destruct v as [|[]|]; try discriminate; injection H as <-; split; auto;
    split; auto; refine (conj Gt (conj Rt (conj W _))); simpl; eauto.
  Qed.
  Lemma EventFiniteNominal_ok : forall t v e, good t -> realv t -> wf v -> EventFiniteNominal (N:=N) t v = Ok e ->
    e = EBasic KNom t v /\ gev e.
  Proof.
    intros t v e Gt Rt W H. destruct v as [|[]|]; try discriminate; injection H as <-; split; auto;
    split; auto; refine (conj Gt (conj Rt (conj W _))); simpl; eauto.
  Qed.

  Lemma intervals_or : forall t args es e, good t -> realv t -> Forall wf_b args ->
    mapM (fun a => EventInterval (N:=N) t (PB a)) args = Ok es -> EventOr es = Ok e ->
    gev e /\ forall w, holds e w <-> exists y, teval t w = Some y /\ fm y (PUnion args).
  Proof.
    intros t args es e Gt Rt W M E. apply mapM_Forall2 in M.
    assert (F : Forall2 (fun a e => gev e /\ e = EBasic KInt t (PB a)) args es).
    { clear E. revert W. induction M; intros W; constructor; inversion W; subst; auto.
      apply EventInterval_ok in H; tauto. }
    assert (Ge : Forall gev es) by (clear -F; induction F as [|? ? ? ? (K & _)]; constructor; auto).
    apply EventOr_ok in E; auto. destruct E as (-> & G). split; auto.
    intros w. rewrite holds_or. split.
    - intros (x & Hx & Hh). clear -F Hx Hh. induction F as [|a e args es (Ge & Ee) F IH]; [destruct Hx|].
      destruct Hx as [<-|Hx].
      + subst e. apply holds_gev in Hh; auto. destruct Hh as (y & H1 & H2). exists y. split; auto. exists a. simpl; auto.
      + destruct (IH Hx) as (y & H1 & (b & H2 & H3)). exists y. split; auto. exists b. simpl; auto.
    - intros (y & H1 & (b & H2 & H3)). clear -F H1 H2 H3. induction F as [|a e args es (Ge & Ee) F IH]; [destruct H2|].
      destruct H2 as [->|H2].
      + exists e. split; [now left|]. subst e. apply holds_gev; auto. exists y. auto.
      + destruct (IH H2) as (e' & E1 & E2). exists e'. simpl; auto.
  Qed.

  Lemma inv_basic_ok : forall k t v n, gev (EBasic k t v) -> inv_basic io k t v = Ok n ->
    gev n /\ forall w, holds n w <-> fails (EBasic k t v) w.
  Proof.
    intros k t v n G H. pose proof (gev_wf _ _ _ G) as (Gt & Wv & Kv & Rt).
    unfold inv_basic in H. inv_bind H. rename r into nv.
    assert (Sp : wf nv /\ forall y, fm y nv <-> typed k y /\ ~ fm y v \/ False).
    { destruct k.
      - destruct Kv as (i & ->). apply pinv_f in E; [|exact Wv|exact I]. destruct E as (A & _ & B & _). split; auto.
        intros y. rewrite B. destruct y as [x|str]; simpl; [|split; [intros (x & K & _); discriminate|tauto]].
        split; [intros (z & _ & K); auto|intros [(_ & K)|[]]; eauto].
      - assert (Rv : real_set v) by (destruct Kv as [->|(vs & ->)]; exact I).
        apply pinv_f in E; auto. destruct E as (A & _ & B & _). split; auto.
        intros y. rewrite B. destruct y as [x|str]; simpl; [|split; [intros (x & K & _); discriminate|tauto]].
        split; [intros (z & _ & K); auto|intros [(_ & K)|[]]; eauto].
      - destruct Kv as [->|Kv].
        + simpl in E. injection E as <-. simpl in H. discriminate.
        + destruct v as [|[vs f| |]|]; simpl in Kv; try tauto.
          destruct (pinv_nom_ok io vs f Wv) as (r & E' & A & B & C). rewrite E in E'. injection E' as <-.
          split; auto. intros [x|str]; simpl typed; unfold fm; simpl inj.
          * split; [|tauto]. intros K. exfalso. destruct nv as [|[]|]; simpl in B; try tauto; exact K.
          * rewrite C. simpl mem. tauto. }
    destruct Sp as (Wn & Sp).
    assert (Fin : gev n /\ (forall w, holds n w <-> exists y, teval t w = Some y /\ fm y nv) ->
      gev n /\ forall w, holds n w <-> fails (EBasic k t v) w).
    { intros (Gn & Hn). split; auto. intros w. rewrite Hn, fails_basic. split.
      - intros (y & H1 & H2). apply Sp in H2. exists y. ands; tauto.
      - intros (y & H1 & H2 & H3). exists y. split; auto. apply Sp. tauto. }
    assert (Bas : forall k' e, e = EBasic k' t nv /\ gev e -> Ok e = Ok n ->
      gev n /\ (forall w, holds n w <-> exists y, teval t w = Some y /\ fm y nv)).
    { intros k' e (-> & Ge) [= <-]. split; auto. intros w. now apply holds_gev. }
    apply Fin. destruct k.
    - destruct nv as [|[| |i]|[|a [|b [|]]]]; try discriminate.
      + eapply Bas; [apply EventFiniteReal_ok; auto; reflexivity|exact H].
      + eapply Bas; [apply EventInterval_ok; auto; reflexivity|exact H].
      + inv_bind H. inv_bind H. pose proof Wn as Wn'. apply wf_union_iff in Wn'. destruct Wn' as ((Wa & _) & _).
        apply (intervals_or t [a; b] [r; r0] n); auto. simpl in E0, E1 |- *. rewrite E0, E1. reflexivity.
    - destruct (peqb nv Reals) eqn:Er.
      + apply EventInterval_ok in H; auto; [|simpl; unfold wf_iv; simpl; auto]. destruct H as (-> & Gn). split; auto.
        intros w. rewrite holds_gev by auto. pose proof (peqb_mem _ _ Er) as P.
        split; intros (y & H1 & H2); exists y; split; auto; apply P; exact H2.
      + destruct nv as [| |args]; try discriminate. inv_bind H. apply wf_union_iff in Wn. destruct Wn as ((Wa & _) & _).
        now apply (intervals_or t args r n).
    - apply EventFiniteNominal_ok in H; auto. destruct H as (-> & Gn). split; auto. intros w. now apply holds_gev.
  Qed.

  Lemma reduce_and : forall l e, Forall gev l -> reduceM (ev_and io) l = Ok e ->
    gev e /\ forall w, holds e w <-> forall x, In x l -> holds x w.
  Proof.
    intros [|a l] e F H; [discriminate|]. simpl in H. inversion F; subst. clear F.
    revert a H2 H. induction H3 as [|b l Gb Gl IH]; intros a Ga H; simpl in H.
    - injection H as <-. split; auto. intros w. split; [intros K x [<-|[]]; auto|intros K; apply K; now left].
    - inv_bind H. apply ev_and_ok in E; auto. destruct E as (Gr & Hr). apply IH in H; auto. destruct H as (Ge & He).
      split; auto. intros w. rewrite He. split.
      + intros K x Hx. assert (Kr : holds r w) by (apply K; now left). apply Hr in Kr.
        destruct Hx as [<-|[<-|Hx]]; try tauto. apply K. now right.
      + intros K x [<-|Hx]; [apply Hr; split; apply K; simpl; auto|apply K; simpl; auto].
  Qed.
  Lemma reduce_or : forall l e, Forall gev l -> reduceM (ev_or io) l = Ok e ->
    gev e /\ forall w, holds e w <-> exists x, In x l /\ holds x w.
  Proof.
    intros [|a l] e F H; [discriminate|]. simpl in H. inversion F; subst. clear F.
    revert a H2 H. induction H3 as [|b l Gb Gl IH]; intros a Ga H; simpl in H.
    - injection H as <-. split; auto. intros w. split; [intros K; exists a; simpl; auto|intros (x & [<-|[]] & K); auto].
    - inv_bind H. apply ev_or_ok in E; auto. destruct E as (Gr & Hr). apply IH in H; auto. destruct H as (Ge & He).
      split; auto. intros w. rewrite He. split.
      + intros (x & [<-|Hx] & K).
        * apply Hr in K. destruct K; [exists a|exists b]; simpl; auto.
        * exists x. simpl; auto.
      + intros (x & [<-|[<-|Hx]] & K).
        * exists r. split; [now left|]. apply Hr; auto.
        * exists r. split; [now left|]. apply Hr; auto.
        * exists x. simpl; auto.
  Qed.

  Theorem ev_not_ok : forall e n, gev e -> ev_not io e = Ok n -> gev n /\ forall w, holds n w <-> fails e w.
  Proof.
    induction e using tr_ind'; intros n G Hn; simpl in Hn; try discriminate.
    - now apply inv_basic_ok.
    - inv_bind Hn. apply gev_or in G. destruct G as (_ & G). apply mapM_Forall2 in E.
      assert (F : Forall2 (fun e n => gev n /\ forall w, holds n w <-> fails e w) l r).
      { clear Hn. revert H G. induction E; intros F G; constructor; inversion F; inversion G; subst; auto. }
      apply reduce_and in Hn.
      + destruct Hn as (Gn & Hn). split; auto. intros w. rewrite Hn, fails_or.
        apply (Forall2_all _ _ (fun e => fails e w) (fun e => holds e w)). clear -F. induction F as [|? ? ? ? (_ & K)]; constructor; auto.
      + clear -F. induction F as [|? ? ? ? (K & _)]; constructor; auto.
    - inv_bind Hn. apply gev_and in G. destruct G as (_ & G). apply mapM_Forall2 in E.
      assert (F : Forall2 (fun e n => gev n /\ forall w, holds n w <-> fails e w) l r).
      { clear Hn. revert H G. induction E; intros F G; constructor; inversion F; inversion G; subst; auto. }
      apply reduce_or in Hn.
      + destruct Hn as (Gn & Hn). split; auto. intros w. rewrite Hn, fails_and.
        apply (Forall2_ex _ _ (fun e => fails e w) (fun e => holds e w)). clear -F. induction F as [|? ? ? ? (_ & K)]; constructor; auto.
      + clear -F. induction F as [|? ? ? ? (K & _)]; constructor; auto.
  Qed.

  Theorem ev_xor_ok : forall a b e, gev a -> gev b -> ev_xor io a b = Ok e ->
    gev e /\ forall w, holds e w <-> (holds a w /\ fails b w) \/ (fails a w /\ holds b w).
  Proof.
    intros a b e Ga Gb H. unfold ev_xor in H. destruct (is_event b); [|discriminate].
    inv_bind H. inv_bind H. inv_bind H. inv_bind H.
    apply ev_not_ok in E; auto. destruct E as (G1 & H1). apply ev_and_ok in E0; auto. destruct E0 as (G2 & H2).
    apply ev_not_ok in E1; auto. destruct E1 as (G3 & H3). apply ev_and_ok in E2; auto. destruct E2 as (G4 & H4).
    apply ev_or_ok in H; auto. destruct H as (G5 & H5). split; auto. intros w. rewrite H5, H2, H4, H1, H3. tauto.
  Qed.

  (** ** Comparisons *)

  Lemma t_le_ok : forall (t : tr) x e, good t -> realv t -> t_le t x = Ok e ->
    gev e /\ forall w, holds e w <-> exists y, teval t w = Some (FNum y) /\ below x false y.
  Proof.
    intros t x e Gt Rt H. unfold t_le in H. inv_bind H. rename r into i. pose proof (Interval_wf _ _ _ _ _ E) as W.
    apply Interval_fin in E. destruct E as (_ & ->). apply EventInterval_ok in H; auto. destruct H as (-> & G). split; auto.
    intros w. rewrite holds_gev by auto. split.
    - intros ([y|s] & H1 & H2); [|destruct H2]. exists y. split; auto. apply iv_fm in H2. destruct H2 as (_ & H2).
      cbn [iv_b iv_ro] in H2. now rewrite below_inf in H2.
    - intros (y & H1 & H2). exists (FNum y). split; auto. apply iv_fm. cbn [iv_a iv_b iv_lo iv_ro]. rewrite below_inf. simpl. auto.
  Qed.
  Lemma t_lt_ok : forall (t : tr) x e, good t -> realv t -> t_lt t x = Ok e ->
    gev e /\ forall w, holds e w <-> exists y, teval t w = Some (FNum y) /\ below x true y.
  Proof.
    intros t x e Gt Rt H. unfold t_lt in H. inv_bind H. rename r into i. pose proof (Interval_wf _ _ _ _ _ E) as W.
    apply Interval_fin in E. destruct E as (_ & ->). apply EventInterval_ok in H; auto. destruct H as (-> & G). split; auto.
    intros w. rewrite holds_gev by auto. split.
    - intros ([y|s] & H1 & H2); [|destruct H2]. exists y. split; auto. apply iv_fm in H2. destruct H2 as (_ & H2).
      cbn [iv_b iv_ro] in H2. now rewrite below_inf in H2.
    - intros (y & H1 & H2). exists (FNum y). split; auto. apply iv_fm. cbn [iv_a iv_b iv_lo iv_ro]. rewrite below_inf. simpl. auto.
  Qed.
  Lemma t_ge_ok : forall (t : tr) x e, good t -> realv t -> t_ge t x = Ok e ->
    gev e /\ forall w, holds e w <-> exists y, teval t w = Some (FNum y) /\ above x false y.
  Proof.
    intros t x e Gt Rt H. unfold t_ge in H. inv_bind H. rename r into i. pose proof (Interval_wf _ _ _ _ _ E) as W.
    apply Interval_fin in E. destruct E as (_ & ->). apply EventInterval_ok in H; auto. destruct H as (-> & G). split; auto.
    intros w. rewrite holds_gev by auto. split.
    - intros ([y|s] & H1 & H2); [|destruct H2]. exists y. split; auto. apply iv_fm in H2. destruct H2 as (H2 & _).
      cbn [iv_a iv_lo] in H2. now rewrite above_inf in H2.
    - intros (y & H1 & H2). exists (FNum y). split; auto. apply iv_fm. cbn [iv_a iv_b iv_lo iv_ro]. rewrite above_inf. simpl. auto.
  Qed.
  Lemma t_gt_ok : forall (t : tr) x e, good t -> realv t -> t_gt t x = Ok e ->
    gev e /\ forall w, holds e w <-> exists y, teval t w = Some (FNum y) /\ above x true y.
  Proof.
    intros t x e Gt Rt H. unfold t_gt in H. inv_bind H. rename r into i. pose proof (Interval_wf _ _ _ _ _ E) as W.
    apply Interval_fin in E. destruct E as (_ & ->). apply EventInterval_ok in H; auto. destruct H as (-> & G). split; auto.
    intros w. rewrite holds_gev by auto. split.
    - intros ([y|s] & H1 & H2); [|destruct H2]. exists y. split; auto. apply iv_fm in H2. destruct H2 as (H2 & _).
      cbn [iv_a iv_lo] in H2. now rewrite above_inf in H2.
    - intros (y & H1 & H2). exists (FNum y). split; auto. apply iv_fm. cbn [iv_a iv_b iv_lo iv_ro]. rewrite above_inf. simpl. auto.
  Qed.

  Lemma sympy_interval_ok : forall (a b : enum) lo ro v, sympy_interval a b lo ro = Ok v ->
    wf v /\ real_set v /\ forall x, fm (N:=N) (FNum x) v <-> above a lo x /\ below b ro x.
  Proof.
    intros a b lo ro v H. unfold sympy_interval in H.
    assert (Ha : forall x, above a (lo || is_inf a) x <-> above a lo x) by (intros x; destruct a, lo; simpl; tauto).
    assert (Hb : forall x, below b (ro || is_inf b) x <-> below b ro x) by (intros x; destruct b, ro; simpl; tauto).
    destruct (eltb a b) eqn:L.
    - inv_bind H. injection H as <-. pose proof (Interval_wf _ _ _ _ _ E) as W. apply Interval_fin in E. destruct E as (_ & ->).
      ands; simpl; auto. intros x. change (fm (FNum x) (PB (BInt (mkIv a b (lo || is_inf a || is_ninf a) (ro || is_inf b || is_pinf b)))) <-> above a lo x /\ below b ro x).
      rewrite iv_fm. cbn [iv_a iv_b iv_lo iv_ro]. rewrite above_inf, below_inf, Ha, Hb. tauto.
    - destruct (eeqb a b && negb (lo || is_inf a) && negb (ro || is_inf b))%bool eqn:E.
      + apply andb_true_iff in E. destruct E as (E & R0). apply andb_true_iff in E. destruct E as (E & L0).
        apply negb_true_iff, orb_false_iff in R0, L0. destruct R0 as (-> & R0), L0 as (-> & L0).
        apply FR1_f in H. destruct H as (A & B & _ & C). ands; auto. intros x. unfold fm. simpl inj. rewrite C.
        apply eeqb_eR in E. destruct a as [|a|], b as [|b|]; try discriminate. simpl in *. injection E as E.
        split; [intros [= ->]; lra|intros (H1 & H2); f_equal; lra].
      + injection H as <-. ands; simpl; auto. intros x. split; [intros []|]. intros (H1 & H2). exfalso.
        assert (NL : ~ elt (eR a) (eR b)) by (intros K; apply eltb_elt in K; congruence).
        destruct a as [|a|], b as [|b|]; simpl in NL, H1, H2; try tauto.
        assert (Eab : toR a = toR b).
        { destruct lo, ro; lra. }
        assert (lo = false) by (destruct lo; auto; destruct ro; lra).
        assert (ro = false) by (destruct ro; auto; destruct lo; lra). subst lo ro.
        simpl in E. rewrite !andb_true_r in E.
        assert (T : eeqb (Fin a) (Fin b) = true) by (apply eeqb_eR; simpl; congruence). simpl in T. congruence.
  Qed.
  Lemma event_of_interval_ok : forall t v e, good t -> realv t -> wf v -> event_of_interval (N:=N) t v = Ok e ->
    gev e /\ forall w, holds e w <-> exists y, teval t w = Some y /\ fm y v.
  Proof.
    intros t v e Gt Rt W H. unfold event_of_interval in H. destruct v as [|[]|]; try discriminate.
    - apply EventFiniteReal_ok in H; auto. destruct H as (-> & G). split; auto. intros. now apply holds_gev.
    - apply EventFiniteReal_ok in H; auto. destruct H as (-> & G). split; auto. intros. now apply holds_gev.
    - apply EventInterval_ok in H; auto. destruct H as (-> & G). split; auto. intros. now apply holds_gev.
  Qed.
  Lemma fm_real : forall (t : tr) (v : pset) w, real_set v ->
    ((exists y, teval t w = Some y /\ fm y v) <-> exists x, teval t w = Some (FNum x) /\ fm (FNum x) v).
  Proof.
    intros t v w R. split; [|intros (x & H); eauto]. intros ([x|s] & H1 & H2); [eauto|].
    now apply fm_str_real in H2.
  Qed.

  (** comparing an interval event again: both comparisons hold *)
  Lemma compute_gte_ok : forall e (t : tr) v (x : enum) lo e', gev (EBasic KInt t v) -> e = EBasic KInt t v ->
    compute_gte (N:=N) e x lo = Ok e' ->
    gev e' /\ forall w, holds e' w <-> holds e w /\ exists y, teval t w = Some (FNum y) /\ above x lo y.
  Proof.
    intros e t v x lo e' G -> H. pose proof (gev_wf _ _ _ G) as (Gt & W & (i & ->) & Rt).
    cbn [compute_gte] in H. destruct (is_ninf (iv_a i)) eqn:Ia; [|discriminate].
    inv_bind H. apply sympy_interval_ok in E. destruct E as (A & B & C).
    apply event_of_interval_ok in H; auto. destruct H as (G' & H). split; auto. intros w. rewrite H, holds_gev by auto.
    rewrite (fm_real t r w B), (fm_real t (PB (BInt i)) w I). destruct (iv_a i) eqn:Ea; try discriminate.
    split.
    - intros (y & H1 & H2). apply C in H2. split; exists y; split; auto; [|tauto]. apply iv_fm. rewrite Ea. simpl. tauto.
    - intros ((y & H1 & H2) & (z & H3 & H4)). rewrite H1 in H3. injection H3 as <-. exists y. split; auto. apply C.
      apply iv_fm in H2. tauto.
  Qed.
  Lemma compute_lte_ok : forall e (t : tr) v (x : enum) ro e', gev (EBasic KInt t v) -> e = EBasic KInt t v ->
    compute_lte (N:=N) e x ro = Ok e' ->
    gev e' /\ forall w, holds e' w <-> holds e w /\ exists y, teval t w = Some (FNum y) /\ below x ro y.
  Proof.
    intros e t v x ro e' G -> H. pose proof (gev_wf _ _ _ G) as (Gt & W & (i & ->) & Rt).
    cbn [compute_lte] in H. destruct (is_pinf (iv_b i)) eqn:Ib; [|discriminate].
    inv_bind H. apply sympy_interval_ok in E. destruct E as (A & B & C).
    apply event_of_interval_ok in H; auto. destruct H as (G' & H). split; auto. intros w. rewrite H, holds_gev by auto.
    rewrite (fm_real t r w B), (fm_real t (PB (BInt i)) w I). destruct (iv_b i) eqn:Eb; try discriminate.
    split.
    - intros (y & H1 & H2). apply C in H2. split; exists y; split; auto; [|tauto]. apply iv_fm. rewrite Eb. simpl. tauto.
    - intros ((y & H1 & H2) & (z & H3 & H4)). rewrite H1 in H3. injection H3 as <-. exists y. split; auto. apply C.
      apply iv_fm in H2. tauto.
  Qed.

  (** ** Membership *)
  Lemma t_in_basic_ok : forall (t : tr) v e, good t -> realv t -> wf v -> t_in_basic (N:=N) t v = Ok e ->
    gev e /\ forall w, holds e w <-> exists y, teval t w = Some y /\ fm y v.
  Proof.
    intros t v e Gt Rt W H. destruct v as [|[]|]; cbn [t_in_basic] in H; try discriminate;
    [apply EventFiniteReal_ok in H|apply EventFiniteNominal_ok in H|apply EventFiniteReal_ok in H|apply EventInterval_ok in H];
      auto; destruct H as (-> & G); split; auto; intros; now apply holds_gev.
  Qed.
  Theorem t_in_ok : forall (t : tr) v e, good t -> realv t -> wf v -> t_in io t v = Ok e ->
    gev e /\ forall w, holds e w <-> exists y, teval t w = Some y /\ fm y v.
  Proof.
    intros t v e Gt Rt W H. destruct v as [|b|args]; [now apply t_in_basic_ok|now apply t_in_basic_ok|].
    cbn [t_in] in H. inv_bind H. apply mapM_Forall2 in E. apply wf_union_iff in W. destruct W as ((W & _) & _).
    assert (F : Forall2 (fun b x => gev x /\ forall w, holds x w <-> exists y, teval t w = Some y /\ fm y (PB b)) args r).
    { clear H. revert W. induction E; intros W; constructor; inversion W; subst; auto. apply (t_in_basic_ok t (PB x)); auto. }
    apply reduce_or in H; [|clear -F; induction F as [|? ? ? ? (K & _)]; constructor; auto].
    destruct H as (G & H). split; auto. intros w. rewrite H.
    rewrite (Forall2_ex _ _ (fun b => exists y, teval t w = Some y /\ fm y (PB b)) (fun e => holds e w) args r).
    - split.
      + intros (b & Hb & y & H1 & H2). exists y. split; auto. exists b. auto.
      + intros (y & H1 & (b & H2 & H3)). exists b. split; auto. exists y. auto.
    - clear -F. induction F as [|? ? ? ? (_ & K)]; constructor; auto.
  Qed.

  Theorem t_in_list_ok : forall (t : tr) vs e, good t -> realv t -> t_in_list (N:=N) t vs = Ok e ->
    gev e /\ forall w, holds e w <-> exists y v, teval t w = Some y /\ In v vs /\ val_is v y.
  Proof.
    intros t vs e Gt Rt H. unfold t_in_list in H.
    assert (Nums : forall x, In (Fin x) (map eR (flat_map (val_num (N:=N)) vs)) <-> exists v, In v vs /\ val_is v (FNum x)).
    { intros x. rewrite in_map_iff. split.
      - intros (a & H1 & H2). apply in_flat_map in H2. destruct H2 as (v & H2 & H3). exists v. split; auto.
        destruct v; simpl in H3; [destruct H3 as [->|[]]; auto|destruct H3].
      - intros (v & H1 & H2). destruct v as [a|]; [|destruct H2]. exists a. split; [exact H2|]. apply in_flat_map.
        exists (VNum a). simpl; auto. }
    assert (Strs : forall s, In s (flat_map (val_str (N:=N)) vs) <-> exists v, In v vs /\ val_is v (FStr s)).
    { intros x. split.
      - intros H2. apply in_flat_map in H2. destruct H2 as (v & H2 & H3). exists v. split; auto.
        destruct v; simpl in H3; [destruct H3|destruct H3 as [->|[]]; simpl; auto].
      - intros (v & H1 & H2). destruct v as [a|]; [destruct H2|]. apply in_flat_map.
        exists (VStr s). simpl in *; subst; auto. }
    assert (RealEv : forall xs v, FiniteReal (N:=N) xs = Ok v -> forall e, EventFiniteReal t v = Ok e ->
      gev e /\ forall w, holds e w <-> exists x, teval t w = Some (FNum x) /\ In (Fin x) (map eR xs)).
    { intros xs v Hv e' He. apply FiniteReal_f in Hv. destruct Hv as (A & B & _ & C).
      apply EventFiniteReal_ok in He; auto. destruct He as (-> & G). split; auto. intros w. rewrite holds_gev, fm_real; auto.
      split; intros (x & H1 & H2); exists x; split; auto; apply C; exact H2. }
    assert (NomEv : forall ss v, FiniteNominal (N:=N) ss None = Ok v -> forall e, EventFiniteNominal t v = Ok e ->
      gev e /\ forall w, holds e w <-> exists s, teval t w = Some (FStr s) /\ In s ss).
    { intros ss v Hv e' He. pose proof (FiniteNominal_wf _ _ _ Hv) as W.
      unfold FiniteNominal in Hv. inv_bind Hv. set (D := dedup String.eqb ss) in *. injection Hv as <-.
      apply EventFiniteNominal_ok in He; auto. destruct He as (-> & G). split; auto. intros w. rewrite holds_gev by auto.
      split.
      - intros ([x|s] & H1 & H2); [destruct H2|]. exists s. split; auto. apply dedup_string_In. exact H2.
      - intros (s & H1 & H2). exists (FStr s). split; auto. unfold fm. simpl. apply dedup_string_In. exact H2. }
    set (xs := flat_map (val_num (N:=N)) vs) in *. set (ss := flat_map (val_str (N:=N)) vs) in *.
    assert (Split : forall w, (exists y v, teval t w = Some y /\ In v vs /\ val_is v y) <->
      (exists x, teval t w = Some (FNum x) /\ In (Fin x) (map eR xs)) \/ (exists s, teval t w = Some (FStr s) /\ In s ss)).
    { intros w. split.
      - intros ([x|s] & v & H1 & H2 & H3); [left; exists x; split; auto; apply Nums; eauto|right; exists s; split; auto; apply Strs; eauto].
      - intros [(x & H1 & H2)|(s & H1 & H2)].
        + apply Nums in H2. destruct H2 as (v & H2 & H3). eauto.
        + apply Strs in H2. destruct H2 as (v & H2 & H3). eauto. }
    clearbody xs ss. destruct xs as [|x xs], ss as [|s ss].
    - apply EventFiniteReal_ok in H; simpl; auto. destruct H as (-> & G). split; auto. intros w. rewrite Split, holds_gev by auto. simpl.
      split; [intros (y & _ & [])|]. intros [(x & _ & [])|(s & _ & [])].
    - inv_bind H. apply (NomEv _ _ E) in H. destruct H as (G & H). split; auto. intros w. rewrite Split, H. simpl map.
      split; [auto|]. intros [(x & _ & [])|K]; auto.
    - inv_bind H. apply (RealEv _ _ E) in H. destruct H as (G & H). split; auto. intros w. rewrite Split, H. simpl.
      split; [auto|]. intros [K|(q & _ & [])]; auto.
    - inv_bind H. inv_bind H. inv_bind H. inv_bind H. apply (RealEv _ _ E) in E0. destruct E0 as (G1 & H1).
      apply (NomEv _ _ E1) in E2. destruct E2 as (G2 & H2).
      apply EventOr_ok in H; [|auto using Forall_cons, Forall_nil]. destruct H as (-> & G). split; auto.
      intros w. rewrite Split, holds_or. rewrite <- H1, <- H2. split.
      + intros (q & [<-|[<-|[]]] & K); auto.
      + intros [K|K]; [exists r0|exists r2]; simpl; auto.
  Qed.

  (** ** Disjunctive normal form *)
  Definition cholds (c : list tr) w : Prop := forall a, In a c -> holds a w.
  Definition cfails (c : list tr) w : Prop := exists a, In a c /\ fails a w.

  Lemma in_product : forall {A} (L : list (list A)) c, In c (product L) <-> Forall2 (fun x l => In x l) c L.
  Proof.
    induction L as [|l L IH]; intros c; simpl.
    - split; [intros [<-|[]]; constructor|intros H; inversion H; auto].
    - rewrite in_flat_map. split.
      + intros (x & Hx & Hc). apply in_map_iff in Hc. destruct Hc as (c' & <- & Hc). constructor; auto. now apply IH.
      + intros H. inversion H; subst. exists x. split; auto. apply in_map. now apply IH.
  Qed.

  Lemma dnf_holds : forall (e : tr) w, is_event e = true -> good e ->
    (holds e w <-> exists c, In c (to_dnf_list e) /\ cholds c w).
  Proof.
    induction e using tr_ind'; intros w Ev G; try discriminate.
    - cbn [to_dnf_list]. split; [intros H; eexists; split; [now left|intros a [<-|[]]; auto]|].
      intros (c & [<-|[]] & H). apply H. now left.
    - destruct (gev_or l (conj G Ev)) as (_ & Gl). rewrite holds_or. cbn [to_dnf_list]. split.
      + intros (e & He & K). rewrite Forall_forall in H, Gl. destruct (Gl e He) as (Ge & Ee). apply (H e He) in K; auto.
        destruct K as (c & K1 & K2). exists c. split; auto. apply in_concat. exists (to_dnf_list e). split; auto. now apply in_map.
      + intros (c & K1 & K2). apply in_concat in K1. destruct K1 as (L & K0 & K1). apply in_map_iff in K0. destruct K0 as (e & <- & He).
        rewrite Forall_forall in H, Gl. destruct (Gl e He) as (Ge & Ee). exists e. split; auto. apply (H e He); eauto.
    - destruct (gev_and l (conj G Ev)) as (_ & Gl). rewrite holds_and. cbn [to_dnf_list]. clear G Ev. split.
      + intros K. assert (P : exists c, Forall2 (fun x l => In x l) c (map to_dnf_list l) /\ forall d, In d c -> cholds d w).
        { induction H as [|e l He Hl IH]; [exists []; split; [constructor|intros ? []]|]. inversion Gl as [|? ? (Ge & Ee) Gl']; subst.
          destruct IH as (c & C1 & C2); auto; [intros e' He'; apply K; now right|].
          destruct (proj1 (He w Ee Ge) (K e (or_introl eq_refl))) as (d & D1 & D2).
          exists (d :: c). split; [constructor; auto|]. intros d' [<-|Hd]; auto. }
        destruct P as (c & C1 & C2). exists (List.concat c). split; [apply in_map; now apply in_product|].
        intros a Ha. apply in_concat in Ha. destruct Ha as (d & D1 & D2). now apply (C2 d).
      + intros (c & K1 & K2). apply in_map_iff in K1. destruct K1 as (c' & <- & K1). apply in_product in K1.
        intros e He. revert c' K1 K2. induction H as [|e0 l He0 Hl IH]; intros c' K1 K2; [destruct He|].
        inversion Gl as [|? ? (Ge & Ee) Gl']; subst. simpl in K1. inversion K1 as [|d ? c ? D1 D2]; subst.
        destruct He as [<-|He].
        * apply He0; auto. exists d. split; auto. intros a Ha. apply K2. simpl. apply in_or_app. auto.
        * apply (IH Gl' He c); auto. intros a Ha. apply K2. simpl. apply in_or_app. auto.
  Qed.

  Lemma dnf_fails : forall (e : tr) w, is_event e = true -> good e ->
    (fails e w <-> forall c, In c (to_dnf_list e) -> cfails c w).
  Proof.
    induction e using tr_ind'; intros w Ev G; try discriminate.
    - cbn [to_dnf_list]. split.
      + intros H c [<-|[]]. eexists; split; [now left|exact H].
      + intros H. destruct (H _ (or_introl eq_refl)) as (a & [<-|[]] & K). exact K.
    - destruct (gev_or l (conj G Ev)) as (_ & Gl). rewrite fails_or. cbn [to_dnf_list]. rewrite Forall_forall in H, Gl. split.
      + intros K c Hc. apply in_concat in Hc. destruct Hc as (L & K0 & K1). apply in_map_iff in K0. destruct K0 as (e & <- & He).
        destruct (Gl e He) as (Ge & Ee). now apply (proj1 (H e He w Ee Ge) (K e He)).
      + intros K e He. destruct (Gl e He) as (Ge & Ee). apply (H e He); auto. intros c Hc. apply K. apply in_concat.
        exists (to_dnf_list e). split; auto. now apply in_map.
    - destruct (gev_and l (conj G Ev)) as (_ & Gl). rewrite fails_and. cbn [to_dnf_list]. clear G Ev. split.
      + intros (e & He & K) c Hc. apply in_map_iff in Hc. destruct Hc as (c' & <- & Hc). apply in_product in Hc.
        revert c' Hc. induction H as [|e0 l He0 Hl IH]; intros c' Hc; [destruct He|].
        inversion Gl as [|? ? (Ge & Ee) Gl']; subst. simpl in Hc. inversion Hc as [|d ? c ? D1 D2]; subst.
        destruct He as [<-|He].
        * destruct (proj1 (He0 w Ee Ge) K d D1) as (a & Ha & Fa). exists a. split; auto. simpl. apply in_or_app. auto.
        * destruct (IH Gl' He c D2) as (a & Ha & Fa). exists a. split; auto. simpl. apply in_or_app. auto.
      + induction H as [|e0 l He0 Hl IH]; intros K.
        * exfalso. destruct (K [] (or_introl eq_refl)) as (a & [] & _).
        * inversion Gl as [|? ? (Ge & Ee) Gl']; subst.
          destruct (dec (fails e0 w)) as [Y|Nf]; [exists e0; split; [now left|auto]|].
          destruct (IH Gl') as (e & He & Fe); [|exists e; split; [now right|auto]].
          intros c Hc. apply in_map_iff in Hc. destruct Hc as (c' & <- & Hc).
          assert (exists d, In d (to_dnf_list e0) /\ ~ cfails d w) as (d & D1 & D2).
          { destruct (dec (exists d, In d (to_dnf_list e0) /\ ~ cfails d w)) as [Y|Y]; auto. exfalso. apply Nf.
            apply He0; auto. intros c Hc'. destruct (dec (cfails c w)); auto. exfalso. apply Y. eauto. }
          destruct (K (List.concat (d :: c'))) as (a & Ha & Fa).
          { apply (in_map (@List.concat tr) _ (d :: c')). apply in_product. constructor; auto. now apply in_product. }
          simpl in Ha. apply in_app_or in Ha. destruct Ha as [Ha|Ha]; [exfalso; apply D2; exists a; auto|exists a; auto].
  Qed.

  (** every clause is a non-empty list of good basic events *)
  Definition clause_ok (c : list tr) : Prop := c <> [] /\ Forall (fun a => gev a /\ is_basic a = true) c.
  Lemma to_dnf_list_ok : forall e : tr, gev e -> to_dnf_list e <> [] /\ Forall clause_ok (to_dnf_list e).
  Proof.
    induction e using tr_ind'; intros G; try (destruct G; discriminate).
    - cbn [to_dnf_list]. split; [discriminate|]. constructor; [|constructor]. split; [discriminate|]. constructor; auto.
    - destruct (gev_or l G) as (Ne & Gl). cbn [to_dnf_list]. clear G. split.
      + destruct l as [|e l]; [congruence|]. inversion H as [|? ? He _]; subst. inversion Gl as [|? ? Ge _]; subst. apply He in Ge.
        simpl. destruct (to_dnf_list e); [tauto|discriminate].
      + apply Forall_concat. clear Ne. induction H; simpl; constructor; inversion Gl; subst; auto. now apply H.
    - destruct (gev_and l G) as (Ne & Gl). cbn [to_dnf_list]. clear G.
      assert (Q : Forall (fun L => L <> [] /\ Forall clause_ok L) (map to_dnf_list l)).
      { clear Ne. induction H; simpl; constructor; inversion Gl; subst; auto. }
      assert (Nm : map to_dnf_list l <> []) by (destruct l; [congruence|discriminate]). clear H Gl Ne. split.
      + assert (P : product (map to_dnf_list l) <> []).
        { clear Nm. induction Q as [|L M (H1 & _) _ IH]; simpl; [discriminate|]. destruct L; [congruence|]. simpl.
          destruct (product M); [congruence|discriminate]. }
        destruct (product (map to_dnf_list l)); [congruence|discriminate].
      + apply Forall_map. apply Forall_forall. intros c Hc. apply in_product in Hc. revert Hc Nm. generalize (map to_dnf_list l) as M, Q.
        intros M Q' Hc Nm. clear Q. induction Hc as [|d L c M HdL Hc IH]; [congruence|]. inversion Q' as [|? ? (_ & HL) QM]; subst.
        rewrite Forall_forall in HL. destruct (HL d HdL) as (Nd & Fd). split; simpl.
        * destruct d; [congruence|discriminate].
        * apply Forall_app. split; auto. destruct Hc; [constructor|]. apply IH; auto. discriminate.
  Qed.


  Lemma simplify_and : forall c : list tr, clause_ok c -> exists e, simplify_event (EventAnd (N:=N)) c = Ok e /\ gev e /\ is_clause e /\
    forall w, (holds e w <-> cholds c w) /\ (fails e w <-> cfails c w).
  Proof.
    intros c (Ne & F). destruct c as [|a [|b c]]; [congruence| |].
    - inversion F as [|? ? (Ga & Ba) _]; subst. exists a. split; [auto|]. split; [auto|]. split; [now left|]. intros w. unfold cholds, cfails. split; split.
      + intros H x [<-|[]]. auto.
      + intros H. apply H. now left.
      + intros H. exists a. split; auto. now left.
      + intros (x & [<-|[]] & H). auto.
    - assert (Fg : Forall gev (a :: b :: c)) by (eapply Forall_impl; [|exact F]; intros x (K & _); exact K).
      exists (EAnd (a :: b :: c)). unfold simplify_event. rewrite EventAnd_total by auto.
      destruct (EventAnd_ok _ _ Fg (EventAnd_total _ Ne Fg)) as (_ & G). split; [auto|]. split; [auto|]. split.
      + right. exists (a :: b :: c). ands; auto. eapply Forall_impl; [|exact F]. intros x (_ & K); exact K.
      + intros w. split; [apply holds_and|apply fails_and].
  Qed.

  Theorem to_dnf_ok : forall e : tr, gev e -> exists d, to_dnf (N:=N) e = Ok d /\ gev d /\ is_dnf d /\
    forall w, (holds d w <-> holds e w) /\ (fails d w <-> fails e w).
  Proof.
    intros e G. destruct (to_dnf_list_ok e G) as (Ne & F). destruct G as (Ge & Ee). unfold to_dnf.
    assert (exists es, mapM (simplify_event (EventAnd (N:=N))) (to_dnf_list e) = Ok es /\
      Forall2 (fun c e => gev e /\ is_clause e /\ forall w, (holds e w <-> cholds c w) /\ (fails e w <-> cfails c w)) (to_dnf_list e) es)
      as (es & Em & F2).
    { clear Ne. induction F as [|c L Hc HL IH]; [exists []; split; [reflexivity|constructor]|].
      destruct IH as (es & E & F2). destruct (simplify_and c Hc) as (x & Ex & Hx). exists (x :: es).
      simpl. rewrite Ex. simpl. rewrite E. simpl. auto. }
    rewrite Em. cbn [bind].
    assert (Fg : Forall gev es) by (clear -F2; induction F2 as [|? ? ? ? (K & _)]; constructor; auto).
    assert (Fc : Forall is_clause es) by (clear -F2; induction F2 as [|? ? ? ? (_ & K & _)]; constructor; auto).
    assert (Sh : forall w, (holds e w <-> exists x, In x es /\ holds x w)).
    { intros w. rewrite dnf_holds by auto. symmetry; apply (Forall2_ex _ _ (fun c => cholds c w) (fun e => holds e w)).
      clear -F2. induction F2 as [|? ? ? ? (_ & _ & K)]; constructor; auto. apply K. }
    assert (Sf : forall w, (fails e w <-> forall x, In x es -> fails x w)).
    { intros w. rewrite dnf_fails by auto. symmetry; apply (Forall2_all _ _ (fun c => cfails c w) (fun e => fails e w)).
      clear -F2. induction F2 as [|? ? ? ? (_ & _ & K)]; constructor; auto. apply K. }
    destruct es as [|a [|b es]].
    - inversion F2; congruence.
    - exists a. inversion Fg; inversion Fc; subst. split; [auto|]. split; [auto|]. split; [now left|]. intros w. rewrite Sh, Sf. split; split.
      + intros K. exists a. split; auto. now left.
      + intros (x & [<-|[]] & K). auto.
      + intros K x [<-|[]]. auto.
      + intros K. apply K. now left.
    - exists (EOr (a :: b :: es)). unfold simplify_event. assert (Nn : a :: b :: es <> []) by discriminate.
      rewrite EventOr_total by auto. destruct (EventOr_ok _ _ Fg (EventOr_total _ Nn Fg)) as (_ & G). split; [auto|]. split; [auto|]. split.
      + right. exists (a :: b :: es). auto.
      + intros w. rewrite holds_or, fails_or, Sh, Sf. tauto.
  Qed.
End Ev.
