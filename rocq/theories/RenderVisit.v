(** The program of an expression is translated into the commands of the expression. *)
From Coq Require Import List Bool String Reals Lra Lia ZArith QArith Qreals.
From Verif Require Import Base Num Sets SetSpec Poly Trans TransSpec TransFacts Dnf DnfSpec Logs Spe SpeSpec SpeFacts SpeOps Prog ProgSpec ProgProofs
  NormSorts SpeEq CondTypes PropSpe SpeCons LeafEvents LeafProofs LogprobProofs Source SourceVisit Render RenderSpec RenderCode.
Import ListNotations.
Local Open Scope nat_scope.
Local Open Scope list_scope.

Section State.
  Context {N : numsys}.
  Notation stmt := (stmt N).
  Notation item := (item N).
  Notation vstate := (vstate N).
  (** ** The state of the visitor *)
  (** the variables V can be assigned to *)
  Definition ready (V : string -> Prop) (st : vstate) : Prop :=
    vs_first st = false /\ in_context CFor st = false /\ forall x, V x -> known st x = in_context CElif st.
  (** and they have been *)
  Definition done (V : string -> Prop) (st st' : vstate) : Prop :=
    vs_first st' = false /\ vs_context st' = vs_context st /\ vs_constants st' = vs_constants st /\
    (exists xs, vs_variables st' = vs_variables st ++ map (fun x => (x, None)) xs) /\
    (forall x, V x -> known st' x = true) /\ (forall x, ~ V x -> known st' x = known st x).
  Definition visits_to (V : string -> Prop) (v : visitor (N:=N)) (is : list item) : Prop := forall st, ready V st -> exists st', v st = Ok (st', is) /\ done V st st'.

  Lemma known_kept : forall (st st' : vstate) x, (exists xs, vs_variables st' = vs_variables st ++ map (fun x => (x, None)) xs) -> known (N:=N) st x = true -> known st' x = true.
  Proof. intros st st' x (xs & E) H. unfold known in *. rewrite E, map_app, inb_app, H. reflexivity. Qed.
  Lemma context_same : forall c (st st' : vstate), vs_context st' = vs_context st -> in_context (N:=N) c st' = in_context c st.
  Proof. intros c st st' E. unfold in_context. now rewrite E. Qed.
  Lemma known_same : forall (st st' : vstate) x, vs_variables st' = vs_variables st -> known (N:=N) st' x = known st x.
  Proof. intros st st' x E. unfold known. now rewrite E. Qed.
  Lemma visits_ext : forall (V W : string -> Prop) v is, (forall x, V x <-> W x) -> visits_to V v is -> visits_to W v is.
  Proof.
    intros V W v is E H st (A & B & C). destruct (H st) as (st' & Hv & D1 & D2 & D3 & D4 & D5 & D6); [split; auto; split; auto; intros x Hx; apply C; now apply E|]. exists st'. split; auto. unfold done. repeat split; auto; intros x Hx; [apply D5|apply D6]; rewrite E; auto.
  Qed.
  Lemma done_trans : forall (V W : string -> Prop) a b c, done V a b -> done W b c -> done (fun x => V x \/ W x) a c.
  Proof.
    intros V W a b c (A1 & A2 & A3 & (xs & A4) & A5 & A6) (B1 & B2 & B3 & (ys & B4) & B5 & B6). unfold done. split; [auto|]. split; [congruence|]. split; [congruence|]. split; [|split].
    - exists (xs ++ ys). rewrite B4, A4, map_app, app_assoc. reflexivity.
    - intros x [Hx|Hx]; auto. apply (known_kept b); eauto.
    - intros x Hx. rewrite B6, A6; tauto.
  Qed.
  Lemma visits_nil : visits_to (fun _ => False) (each (fun _ : stmt => fun st => Ok (st, [])) []) [].
  Proof. intros st (A & _). exists st. split; [reflexivity|]. unfold done. repeat split; auto; try tauto. exists []. now rewrite app_nil_r. Qed.
  Lemma each_app : forall (v : stmt -> visitor (N:=N)) l m st, each v (l ++ m) st = do (st1, i) <- each v l st; do (st2, j) <- each v m st1; Ok (st2, i ++ j).
  Proof.
    induction l as [|s l IH]; intros m st; cbn [app each bind].
    - destruct (each v m st) as [(st2, j)|e]; reflexivity.
    - destruct (v s st) as [(st1, i)|e]; cbn [bind]; [|reflexivity]. rewrite IH. destruct (each v l st1) as [(st2, j)|e]; cbn [bind]; [|reflexivity]. destruct (each v m st2) as [(st3, k)|e]; cbn [bind]; [|reflexivity]. now rewrite app_assoc.
  Qed.
  Lemma each_one : forall (v : stmt -> visitor (N:=N)) s st, each v [s] st = v s st.
  Proof. intros v s st. cbn. destruct (v s st) as [(st1, i)|e]; cbn [bind]; [|reflexivity]. now rewrite app_nil_r. Qed.
  Lemma visits_app : forall (V W : string -> Prop) (v : stmt -> visitor (N:=N)) l m is js, (forall x, V x -> W x -> False) -> visits_to V (each v l) is -> visits_to W (each v m) js -> visits_to (fun x => V x \/ W x) (each v (l ++ m)) (is ++ js).
  Proof.
    intros V W v l m is js Ap H1 H2 st (A & B & C). destruct (H1 st) as (st1 & E1 & D1); [split; auto|]. destruct (H2 st1) as (st2 & E2 & D2).
    { destruct D1 as (F1 & F2 & _ & _ & _ & F6). split; auto. split; [now rewrite (context_same _ st)|]. intros x Hx. rewrite (context_same _ st) by auto. rewrite F6 by (intro K; exact (Ap x K Hx)). auto. }
    exists st2. split; [|eapply done_trans; eauto]. rewrite each_app, E1. cbn [bind]. now rewrite E2.
  Qed.
End State.

Section Visit.
  Context {N : numsys} {S : logsys} {D : distsys N S} (io : iterorder N) (po : polyoracle N) (fuel : nat).
  Notation tr := (tr N).
  Notation spe := (spe D).
  Notation env := (env (N:=N)).
  Notation command := (command (N:=N) (D:=D)).
  Notation expr := (expr N).
  Notation stmt := (stmt N).
  Notation item := (item N).
  Notation vstate := (vstate N).
  Context (isdist : string -> bool) (unparse : expr -> expr -> string) (call : string -> list (pyval (N:=N)) -> list (string * pyval (N:=N)) -> res (pyval (N:=N))).
  Context (deval : env -> expr -> res (distribution (N:=N) (D:=D))) (aeval : env -> expr -> res (assignment (N:=N))).
  Context (dlaw : dist D -> (fval -> R) -> R) (nominal : string -> bool).
  Context (is_e : num N -> bool) (num_text : num N -> string) (dist_name : dist D -> string) (dist_kwds : dist D -> list (string * num N)) (lexp : lg S -> Q).
  Notation peval := (peval io po fuel call).
  Notation command_of := (command_of io po fuel call deval aeval).
  Notation visit := (visit isdist unparse).
  Notation shows := (shows io po fuel isdist call is_e num_text).
  Notation renderable := (renderable io po fuel isdist call deval dlaw is_e num_text dist_name dist_kwds).
  Notation render := (render_sppl_helper is_e num_text dist_name dist_kwds lexp).
  Notation wf_spe := (wf_spe dlaw).
  Notation coded := (coded dlaw nominal lexp).
  Notation coded_all := (coded_all dlaw nominal lexp).
  Notation coded_cases := (coded_cases dlaw nominal lexp).
  Notation typed := (CondTypes.typed (N:=N) (S:=S) (D:=D) nominal).

  (** ** Assignments *)
  Lemma sample_visit : forall n x e, array_args e = None -> filter isdist (names e) <> [] -> (exists f args kws, e = XCall f args kws /\ isdist f = true) ->
    visits_to (eq x) (visit (1 + n) (SAssign [XName x] e)) [ISample (XName x) (rewrite e)].
  Proof.
    intros n x e Ha Hd (f & args & kws & -> & Hf) st (A & B & C). cbn [Nat.add Source.visit]. unfold visit_Assign. rewrite Ha. destruct (filter isdist (names (XCall f args kws))) as [|y ys] eqn:E; [contradiction|]. cbn [is_nil negb]. rewrite Hf. unfold visit_Assign_sample_or_transform.
    set (st1 := vs_with_distributions _ st).
    rewrite !(context_same _ st st1) by reflexivity. rewrite B. cbn [negb passert bind]. rewrite (known_same st st1) by reflexivity. rewrite (C x eq_refl). destruct (in_context CElif st) eqn:Ec; cbn [negb passert bind].
    - eexists. split; [reflexivity|]. split; [exact A|]. split; [reflexivity|]. split; [reflexivity|]. split; [exists []; cbn; now rewrite app_nil_r|]. split; [intros z <-; rewrite (known_same st st1) by reflexivity; auto|intros z _; now apply known_same].
    - eexists. split; [reflexivity|]. split; [exact A|]. split; [reflexivity|]. split; [reflexivity|]. split; [exists [x]; reflexivity|]. split; [intros z <-|intros z Hz]; rewrite known_with; [now rewrite String.eqb_refl|]. destruct (String.eqb_spec z x) as [->|]; [contradiction|]. now rewrite (known_same st st1).
  Qed.
  Lemma transform_visit : forall n (V : string -> Prop) x e st, array_args e = None -> (forall a b c, e <> XIf a b c) -> filter isdist (names e) = [] -> (exists y, In y (names e) /\ known st y = true) ->
    ready (eq x) st -> exists st', visit (1 + n) (SAssign [XName x] e) st = Ok (st', [ITransform (XName x) (rewrite e)]) /\ done (eq x) st st'.
  Proof.
    intros n V x e st Ha Hi Hd (y & Hy & Ky) (A & B & C). cbn [Nat.add Source.visit].
    assert (E : match e with XIf _ _ _ => visit n (unroll_ifexp [XName x] e) st | _ => visit_Assign isdist unparse [XName x] e st end = visit_Assign isdist unparse [XName x] e st) by (destruct e; auto; exfalso; eapply Hi; reflexivity). rewrite E. clear E.
    unfold visit_Assign. rewrite Ha, Hd. cbn [is_nil negb].
    set (st1 := vs_with_distributions _ st). replace (existsb (known st1) (names e)) with true; [|symmetry; apply existsb_exists; exists y; split; auto; now rewrite (known_same st st1)].
    unfold visit_Assign_sample_or_transform.
    rewrite !(context_same _ st st1) by reflexivity. rewrite B. cbn [negb passert bind]. rewrite (known_same st st1) by reflexivity. rewrite (C x eq_refl). destruct (in_context CElif st) eqn:Ec; cbn [negb passert bind].
    - eexists. split; [reflexivity|]. split; [exact A|]. split; [reflexivity|]. split; [reflexivity|]. split; [exists []; cbn; now rewrite app_nil_r|]. split; [intros z <-; rewrite (known_same st st1) by reflexivity; auto|intros z _; now apply known_same].
    - eexists. split; [reflexivity|]. split; [exact A|]. split; [reflexivity|]. split; [reflexivity|]. split; [exists [x]; reflexivity|]. split; [intros z <-|intros z Hz]; rewrite known_with; [now rewrite String.eqb_refl|]. destruct (String.eqb_spec z x) as [->|]; [contradiction|]. now rewrite (known_same st st1).
  Qed.

  (** ** The texts of intervals and of branches *)
  Definition binds (g : env) (V : string -> Prop) : Prop := forall x, V x -> Source.lookup g x = Ok (PTr (TId x)).
  Lemma token_plain : forall x, plain_name x -> token (N:=N) x = XName x.
  Proof. intros x (H & _). unfold token. now rewrite H. Qed.
  Lemma eltb_wf : forall i : interval N, wf_iv i -> eltb (iv_a i) (iv_b i) = true.
  Proof. intros i (H & _). now apply eltb_elt. Qed.
  Lemma interval_reads : forall g x supp, plain_name x -> wf_iv supp -> bounded supp -> binds g (eq x) -> the_event io po fuel call g (rewrite (show_interval x supp)) = Ok (supp_event x supp).
  Proof.
    intros g x supp Px W B Hg. pose proof (eltb_wf supp W) as Lt. destruct W as (_ & Wa & Wb). destruct supp as [a b lo ro]. cbn [iv_a iv_b iv_lo iv_ro] in *. unfold bounded in B. cbn [iv_a iv_b] in B.
    unfold show_interval, the_event, supp_event. cbn [iv_a iv_b iv_lo iv_ro]. rewrite token_plain by auto.
    destruct a as [|a|]; [| |destruct b; discriminate Lt].
    - destruct b as [|b|]; [discriminate Lt| |destruct B; congruence]. cbn [is_ninf bound]. rewrite (Wa eq_refl). destruct ro; cbn [rewrite visit_Compare Source.peval]; rewrite (Hg x eq_refl); cbn [bind py_cmp py_order is_event]; reflexivity.
    - destruct b as [|b|]; [discriminate Lt| |].
      + cbn [is_ninf is_pinf bound].
        assert (G1 : t_gt (TId x) (Fin a) = Ok (EBasic KInt (TId x) (PB (BInt (mkIv (N:=N) (Fin a) PInf true true))))) by reflexivity.
        assert (G2 : t_ge (TId x) (Fin a) = Ok (EBasic KInt (TId x) (PB (BInt (mkIv (N:=N) (Fin a) PInf false true))))) by reflexivity.
        destruct lo, ro; cbn [rewrite visit_Compare Source.peval]; rewrite (Hg x eq_refl); cbn [bind py_cmp py_order is_event ptr]; rewrite ?G1, ?G2; unfold ptr; cbn [bind py_cmp py_order is_event compute_lte iv_a iv_b iv_lo is_pinf]; unfold sympy_interval; rewrite Lt; unfold Interval_; rewrite Lt; reflexivity.
      + cbn [is_ninf is_pinf bound]. rewrite (Wb eq_refl). destruct lo; cbn [rewrite visit_Compare Source.peval]; rewrite (Hg x eq_refl); cbn [bind py_cmp py_order is_event]; reflexivity.
  Qed.
  Lemma branch_reads : forall g v i, binds g (eq v) -> peval g (rewrite (XCmp (XName v) [(CEq, XText (nat_text i))])) = Ok (PTr (bv_event v i)).
  Proof. intros g v i Hg. cbn [rewrite visit_Compare Source.peval]. rewrite (Hg v eq_refl). reflexivity. Qed.
  Lemma var_reads : forall g x, binds g (eq x) -> the_var io po fuel call g (XName x) = Ok x.
  Proof. intros g x Hg. unfold the_var. cbn [Source.peval]. now rewrite (Hg x eq_refl). Qed.

  (** ** Expressions *)
  Context (Hchoice : isdist "choice" = true) (Hdev : forall g ws, NoDup (map fst ws) -> deval g (choice_expr ws) = Ok (choice ws)).
  (** the statements are written, visited and run *)
  Definition not_test (i : item) : Prop := match i with IExpr _ => False | _ => True end.
  Definition written (V : string -> Prop) (body : list stmt) (is : list item) : Prop :=
    body <> [] /\ Forall not_test is /\ List.length is = List.length body /\ exists m, forall n, m <= n -> visits_to V (each (visit n) body) is.

  Lemma mapM_app : forall A B (f : A -> res B) l m a b, mapM f l = Ok a -> mapM f m = Ok b -> mapM f (l ++ m) = Ok (a ++ b).
  Proof.
    induction l as [|x l IH]; intros m a b H1 H2; cbn [app mapM] in *; [injection H1 as <-; exact H2|]. destruct (f x) as [y|e]; cbn [bind] in *; [|discriminate]. destruct (mapM f l) as [ys|e] eqn:E; cbn [bind] in *; [|discriminate]. injection H1 as <-. now rewrite (IH m ys b eq_refl H2).
  Qed.
  Lemma rewrite_choice : forall ws, rewrite (choice_expr (N:=N) ws) = choice_expr ws.
  Proof. intros ws. unfold choice_expr. cbn [rewrite map]. rewrite map_map. reflexivity. Qed.
  Lemma rewrite_dist : forall d, rewrite (dist_expr dist_name dist_kwds d) = dist_expr dist_name dist_kwds d.
  Proof. intros d. unfold dist_expr. cbn [rewrite map]. rewrite map_map. reflexivity. Qed.
  Lemma choice_written : forall x ws, exists m, forall n, m <= n -> visits_to (eq x) (visit n (render_sppl_choice (XName x) ws)) [ISample (XName x) (choice_expr ws)].
  Proof.
    intros x ws. exists 1. intros [|n] Hm; [lia|]. unfold render_sppl_choice. rewrite <- (rewrite_choice ws) at 2. apply sample_visit.
    - reflexivity.
    - unfold choice_expr. cbn [names filter]. rewrite Hchoice. discriminate.
    - eexists _, _, _. split; [reflexivity|exact Hchoice].
  Qed.
  Lemma choice_runs : forall g x ws, NoDup (map fst ws) -> binds g (eq x) -> command_of g (ISample (XName x) (choice_expr ws)) = Ok (Sample x (choice ws)).
  Proof. intros g x ws Nd Hg. cbn [Source.command_of]. rewrite var_reads by auto. cbn [bind]. now rewrite Hdev. Qed.

  (** definitions of derived variables *)
  Lemma derived_written : forall x e2 e1, (forall y, In y (map fst e2) -> plain_name y) -> NoDup (x :: map fst (e1 ++ e2)) -> (forall q e3 e4, e2 = e3 ++ q :: e4 -> forall z, In z (symbols (snd q)) -> In z (x :: map fst (e1 ++ e3))) ->
    Forall (fun p => shows (snd p)) e2 ->
    exists ds is, mapM (render_derived is_e num_text) e2 = Ok ds /\ Forall not_test is /\ List.length is = List.length ds /\
      (forall n st, (forall y, In y (x :: map fst e1) -> known st y = true) -> ready (fun y => In y (map fst e2)) st -> exists st', each (visit (1 + n)) ds st = Ok (st', is) /\ done (fun y => In y (map fst e2)) st st') /\
      (forall g, binds g (fun y => In y (x :: map fst (e1 ++ e2))) -> exists ts, mapM (command_of g) is = Ok ts /\ Forall2 derives e2 ts).
  Proof.
    intros x. induction e2 as [|(y, t) e2 IH]; intros e1 Pl Nd Sy Sh.
    - exists [], []. split; [reflexivity|]. split; [constructor|]. split; [reflexivity|]. split.
      + intros n st _ (A & _). exists st. split; [reflexivity|]. unfold done. repeat split; auto; try (intros z []). exists []. now rewrite app_nil_r.
      + intros g _. exists []. split; [reflexivity|constructor].
    - inversion Sh as [|? ? Sh1 Sh2]; subst. destruct Sh1 as (p & t' & E1 & (E2 & E3 & E4 & z0 & Z1 & Z2) & E5 & E6). cbn [snd] in *.
      destruct (IH (e1 ++ [(y, t)])) as (ds & is & I1 & I2 & I3 & I4 & I5).
      { intros z Hz. apply Pl. now right. }
      { rewrite <- app_assoc. exact Nd. }
      { intros q e3 e4 -> z Hz. rewrite <- app_assoc. apply (Sy q ((y, t) :: e3) e4 eq_refl z Hz). }
      { exact Sh2. }
      assert (Sy0 : forall z, In z (symbols t) -> In z (x :: map fst e1)) by (intros z Hz; pose proof (Sy (y, t) [] e2 eq_refl z Hz) as K; rewrite app_nil_r in K; exact K).
      exists (SAssign [XName y] (tree p) :: ds), (ITransform (XName y) (rewrite (tree p)) :: is). cbn [mapM]. unfold render_derived at 1. cbn [fst snd]. rewrite E1. cbn [bind]. rewrite token_plain by (apply Pl; now left). rewrite I1. cbn [bind].
      split; [reflexivity|]. split; [constructor; [exact Logic.I|exact I2]|]. split; [cbn; now rewrite I3|]. split.
      + intros n st Hk Hr. destruct Hr as (A & B & C).
        assert (Ny : ~ In y (map fst e2)).
        { inversion Nd as [|? ? _ Nd']; subst. rewrite map_app in Nd'. cbn [map fst] in Nd'. apply NoDup_remove_2 in Nd'. intros K. apply Nd'. apply in_or_app. auto. }
        destruct (transform_visit n (eq y) y (tree p) st) as (st1 & V1 & D1); auto; [exists z0; split; auto|split; [exact A|]; split; [exact B|]; intros z <-; apply C; now left|].
        destruct D1 as (F1 & F2 & F3 & F4 & F5 & F6).
        destruct (I4 n st1) as (st2 & V2 & D2).
        { intros z Hz. rewrite map_app in Hz. cbn [map fst] in Hz. rewrite app_comm_cons in Hz. apply in_app_or in Hz. destruct Hz as [Hz|[<-|[]]]; [apply (known_kept st); auto|now apply F5]. }
        { split; [exact F1|]. split; [now rewrite (context_same _ st)|]. intros z Hz. rewrite (context_same _ st) by auto. rewrite F6 by (intros ->; contradiction). apply C. now right. }
        exists st2. split.
        * cbn [each]. rewrite V1. cbn [bind]. rewrite V2. reflexivity.
        * apply (done_trans (eq y) (fun z => In z (map fst e2)) st st1 st2); [|exact D2]. unfold done. auto 10.
      + intros g Hg. destruct (I5 g) as (ts & T1 & T2); [rewrite <- app_assoc; exact Hg|]. exists (Transform y t' :: ts). split; [|constructor; [exists t'; auto|exact T2]]. cbn [mapM]. cbn [Source.command_of]. rewrite var_reads.
        2:{ intros z <-. apply Hg. right. rewrite map_app. apply in_or_app. right. now left. }
        cbn [bind]. rewrite E5; [cbn [bind]; rewrite T1; reflexivity|]. intros z Hz. apply Hg. destruct (Sy0 z Hz) as [->|K]; [now left|]. right. rewrite map_app. apply in_or_app. auto.
  Qed.

  Lemma built_split : forall x (e : tenv (N:=N)), env_built x e -> NoDup (map fst e) /\ forall q e3 e4, tl e = e3 ++ q :: e4 -> forall z, In z (symbols (snd q)) -> In z (x :: map fst e3).
  Proof.
    intros x e B. induction B as [|e y t B (I1 & I2) Fr Sy]; [split; [repeat constructor; intros []|intros q [|? ?] e4 K; discriminate K]|]. split.
    - rewrite map_app. cbn [map fst]. apply nodup_app; auto; [repeat constructor; intros []|]. intros z Hz [<-|[]]. contradiction.
    - intros q e3 e4 E z Hz. assert (Et : exists e', e = (x, TId x) :: e') by (clear -B; induction B as [|e y t B (e' & ->) Fr Sy]; eexists; reflexivity). destruct Et as (e' & ->). cbn [app tl] in *.
      destruct e4 as [|q' e4].
      + apply app_inj_tail in E. destruct E as (<- & <-). exact (Sy z Hz).
      + assert (K : exists e5 q5, q' :: e4 = e5 ++ [q5]) by (destruct (@exists_last _ (q' :: e4)) as (e5 & q5 & K); [discriminate|]; eauto). destruct K as (e5 & q5 & K). rewrite K in E.
        rewrite app_comm_cons, app_assoc in E. apply app_inj_tail in E. destruct E as (E & _). eapply I2; eauto.
  Qed.

  (** what is written for s, when bs0 are the branch variables so far *)
  Definition numbered_from (k : nat) (bs : list (string * list (string * Q))) : Prop := map fst bs = map branch_var (seq k (List.length bs)).
  Lemma numbered_app : forall k bs es, numbered_from k bs -> numbered_from (k + List.length bs) es -> numbered_from k (bs ++ es).
  Proof. intros k bs es H1 H2. unfold numbered_from in *. rewrite map_app, app_length, seq_app, map_app. congruence. Qed.
  Definition good_text (s : spe) : Prop := forall bs0, exists body bs1 is, render s bs0 = Ok (body, bs0 ++ bs1) /\ numbered_from (List.length bs0) bs1 /\ written (vars s) body is /\
    forall g, binds g (fun x => vars s x \/ In x (map fst bs1)) -> exists cs T, mapM (command_of g) is = Ok cs /\ coded (List.length bs0) s cs T bs1.

  Lemma nominal_text : forall x ws, wf_spe (NominalLeaf x ws) -> renderable (NominalLeaf x ws) -> typed no_env (NominalLeaf x ws) -> good_text (NominalLeaf x ws).
  Proof.
    intros x ws W Re T bs0. cbn in Re, T. destruct (choice_written x ws) as (m & Hm). eexists _, [], [ISample (XName x) (choice_expr ws)]. cbn [render_sppl_helper]. rewrite token_plain by auto. rewrite app_nil_r. split; [reflexivity|]. split; [reflexivity|]. split.
    - split; [discriminate|]. split; [repeat constructor|]. split; [reflexivity|]. exists m. intros n Hn. apply (visits_ext (eq x)); [intros z; cbn; intuition auto|]. intros st Hs. rewrite each_one. now apply Hm.
    - intros g Hg. eexists _, _. split; [|apply coded_nom; [exact W|apply T|exact Re]]. cbn [mapM]. rewrite choice_runs; [reflexivity|apply W|]. intros z <-. apply Hg. left. reflexivity.
  Qed.
  Lemma real_text : forall disc x d supp cond e, wf_spe (RealLeaf disc x d supp cond e) -> renderable (RealLeaf disc x d supp cond e) -> typed no_env (RealLeaf disc x d supp cond e) -> good_text (RealLeaf disc x d supp cond e).
  Proof.
    intros disc x d supp cond e W Re T bs0. pose proof W as W0. destruct W as (Wi & Wd & Wo & Wm & (We & Wg) & Ws). destruct Re as (Pl & (Is & Na & supp0 & Q1 & Q2 & Q3 & Q4) & Bd & Sh). apply every_here in T. cbn [part_ok] in T.
    destruct (built_split x e We) as (Nd & Sy). assert (Et : exists e', e = (x, TId x) :: e') by (clear -We; induction We as [|e y t B (e' & ->) Fr Sy]; eexists; reflexivity). destruct Et as (e' & ->). cbn [tl map fst] in *.
    destruct (derived_written x e' [] ltac:(intros y Hy; apply Pl; now right) Nd Sy Sh) as (ds & is & D1 & D2 & D3 & D4 & D5).
    set (cst := if cond then [SCall "condition" [show_interval x supp]] else []). set (cit := if cond then [ICondition (rewrite (show_interval x supp))] else []).
    exists (SAssign [XName x] (dist_expr dist_name dist_kwds d) :: cst ++ ds), [], (ISample (XName x) (dist_expr dist_name dist_kwds d) :: cit ++ is). split; [|split; [reflexivity|split]].
    - cbn [render_sppl_helper tl]. rewrite D1. cbn [bind]. rewrite token_plain by (apply Pl; now left). rewrite app_nil_r. reflexivity.
    - split; [discriminate|]. split; [constructor; [exact Logic.I|]; apply Forall_app; split; auto; unfold cit; destruct cond; repeat constructor|]. split; [cbn [List.length]; rewrite !app_length, D3; unfold cst, cit; destruct cond; reflexivity|].
      exists 1. intros [|n] Hm; [lia|]. intros st (A & B & C).
      destruct (sample_visit n x (dist_expr dist_name dist_kwds d)) with (st := st) as (st1 & V1 & F1 & F2 & F3 & F4 & F5 & F6).
      { unfold dist_expr. cbn [array_args]. destruct (String.eqb_spec (dist_name d) "array"); [contradiction|reflexivity]. }
      { unfold dist_expr. cbn [names filter]. rewrite Is. discriminate. }
      { eexists _, _, _. split; [reflexivity|exact Is]. }
      { split; [exact A|]. split; [exact B|]. intros z <-. apply C. now left. }
      rewrite rewrite_dist in V1. destruct (D4 n st1) as (st2 & V2 & D2').
      { intros y [<-|[]]. now apply F5. }
      { split; [exact F1|]. split; [now rewrite (context_same _ st)|]. intros z Hz. rewrite (context_same _ st) by auto. rewrite F6; [apply C; now right|]. intros <-. inversion Nd; contradiction. }
      exists st2. split.
      + cbn [each]. change (1 + n) with (Datatypes.S n) in V1, V2. rewrite V1. cbn [bind]. rewrite each_app. replace (each (visit (Datatypes.S n)) cst st1) with (@Ok (vstate * list item) (st1, cit)) by (unfold cst, cit; destruct cond; reflexivity). cbn [bind]. rewrite V2. reflexivity.
      + apply (done_trans (eq x) (fun y => In y (map fst e')) st st1 st2); [|exact D2']. unfold done. auto 10.
    - intros g Hg. destruct (D5 g) as (ts & T1 & T2); [intros y Hy; apply Hg; left; exact Hy|].
      exists (Sample x (real_dist disc d supp0) :: (if cond then [Condition (supp_event x supp)] else []) ++ ts), (den dlaw (RealLeaf disc x d supp cond ((x, TId x) :: e'))). split.
      + cbn [mapM Source.command_of]. assert (Gx : binds g (eq x)) by (intros z <-; apply Hg; left; now left). rewrite var_reads by auto. cbn [bind]. rewrite Q4. cbn [bind].
        rewrite (mapM_app _ _ (command_of g) cit is (if cond then [Condition (supp_event x supp)] else []) ts); [reflexivity| |exact T1]. unfold cit. destruct cond; [|reflexivity]. cbn [mapM Source.command_of]. rewrite interval_reads; auto. apply Pl. now left.
      + apply coded_real; auto.
  Qed.

  (** products *)
  Lemma children_text : forall l, (forall c, In c l -> good_text c) -> ForallOrdPairs apart l -> forall bs0, exists r bs1 is,
    rendered render l bs0 = Ok (r, bs0 ++ bs1) /\ numbered_from (List.length bs0) bs1 /\ Forall (fun b => b <> []) r /\ List.length r = List.length l /\ Forall not_test is /\ List.length is = List.length (List.concat r) /\
    (exists m, forall n, m <= n -> visits_to (pvars l) (each (visit n) (List.concat r)) is) /\
    forall g, binds g (fun x => pvars l x \/ In x (map fst bs1)) -> exists cs T, mapM (command_of g) is = Ok cs /\ coded_all (List.length bs0) l cs T bs1.
  Proof.
    induction l as [|c l IH]; intros G Ap bs0.
    - exists [], [], []. cbn [rendered]. rewrite app_nil_r. split; [reflexivity|]. split; [reflexivity|]. split; [constructor|]. split; [reflexivity|]. split; [constructor|]. split; [reflexivity|]. split.
      + exists 0. intros n _ st (A & _). exists st. split; [reflexivity|]. unfold done. repeat split; auto; try (intros x []). exists []. now rewrite app_nil_r.
      + intros g _. eexists _, _. split; [reflexivity|constructor].
    - inversion Ap as [|? ? A1 A2]; subst. destruct (G c (or_introl eq_refl) bs0) as (body & bs1 & is & R1 & N1 & (W1 & W2 & W3 & m1 & W4) & C1).
      destruct (IH (fun d Hd => G d (or_intror Hd)) A2 (bs0 ++ bs1)) as (r & bs2 & js & R2 & N2 & L1 & L2 & L3 & L4 & (m2 & L5) & C2).
      exists (body :: r), (bs1 ++ bs2), (is ++ js). cbn [rendered]. rewrite R1. cbn [bind]. rewrite R2. cbn [bind]. rewrite app_assoc. split; [reflexivity|]. split; [apply numbered_app; [exact N1|rewrite app_length in N2; exact N2]|]. split; [now constructor|]. split; [cbn; now rewrite L2|]. split; [now apply Forall_app|]. split; [cbn [List.concat]; rewrite !app_length; lia|]. split.
      + exists (Nat.max m1 m2). intros n Hn. cbn [List.concat]. apply (visits_ext (fun x => vars c x \/ pvars l x)); [intros x; now rewrite pvars_cons|]. apply visits_app; [|apply W4; lia|apply L5; lia].
        intros x Hx Hl. rewrite Forall_forall in A1. apply pvars_in in Hl. destruct Hl as (d & Hd & Hx'). exact (A1 d Hd x Hx Hx').
      + intros g Hg. destruct (C1 g) as (cs & T & M1 & K1); [intros x Hx; apply Hg; rewrite pvars_cons, map_app, in_app_iff; tauto|]. destruct (C2 g) as (ds & L & M2 & K2); [intros x Hx; apply Hg; rewrite pvars_cons, map_app, in_app_iff; tauto|].
        exists (cs ++ ds), (fun f => T (L f)). split; [now apply mapM_app|]. rewrite app_length in K2. now apply all_cons.
  Qed.
  Lemma product_text : forall l, (forall c, In c l -> good_text c) -> wf_spe (ProductSPE l) -> good_text (ProductSPE l).
  Proof.
    intros l G W bs0. pose proof W as W0. destruct W as (Ne & Wl & Ap). destruct (children_text l G Ap bs0) as (r & bs1 & is & R & Nb & L1 & L2 & L3 & L4 & L5 & C). exists (List.concat r), bs1, is. cbn [render_sppl_helper]. rewrite R. cbn [bind]. split; [reflexivity|]. split; [exact Nb|]. split.
    - split; [|auto]. destruct l as [|c l]; [contradiction|]. destruct r as [|b r]; [discriminate L2|]. inversion L1; subst. cbn. destruct b; [contradiction|discriminate].
    - intros g Hg. destruct (C g Hg) as (cs & T & M & K). exists cs, T. split; auto. now apply coded_prod.
  Qed.

  (** sums *)
  Definition test_of (v : string) (i : nat) : expr := XCmp (XName v) [(CEq, XText (nat_text i))].
  Fixpoint tests (v : string) (i : nat) (l : list (list stmt)) : list (expr * list stmt) :=
    match l with [] => [] | b :: l => (test_of v i, b) :: tests v (1 + i) l end.
  Lemma unroll_chain : forall v l i b, unroll_if (SIf (test_of v i) b (if_chain v (1 + i) l)) = tests v i (b :: l).
  Proof.
    intros v. induction l as [|c l IH]; intros i b; [reflexivity|]. change (unroll_if (SIf (test_of v i) b (if_chain v (1 + i) (c :: l)))) with ((test_of v i, b) :: unroll_if (SIf (test_of v (1 + i)) c (if_chain v (1 + (1 + i)) l))). rewrite IH. reflexivity.
  Qed.
  Definition blocked (body : list stmt) (is : list item) : list item := if Nat.ltb 1 (List.length body) then [ISequence is] else is.
  Lemma block_visits : forall V v body is, visits_to V (each v body) is -> visits_to V (block v body) (blocked body is).
  Proof.
    intros V v body is H st (A & B & C). unfold block. rewrite A, orb_false_r. destruct (H (vs_with_first false st)) as (st' & E & D1 & D2 & D3 & D4 & D5 & D6); [repeat split; auto|]. rewrite E. cbn [bind]. exists st'. split; [reflexivity|]. unfold done. auto 10.
  Qed.
  Lemma within_visits : forall V c v is, visits_to V v is -> forall st : vstate, vs_first st = false -> in_context CFor st = false -> c <> CFor ->
    (forall x, V x -> known st x = (in_context CElif st || ctx_eqb CElif c)) -> exists st', within c v st = Ok (st', is) /\ done V st st'.
  Proof.
    intros V c v is H st A B Nc C. unfold within. destruct (H (vs_with_context (vs_context st ++ [c]) st)) as (st' & E & D1 & D2 & D3 & D4 & D5 & D6).
    { split; [exact A|]. unfold in_context in *. cbn [vs_context vs_with_context]. rewrite !existsb_app. cbn [existsb]. rewrite !orb_false_r. split; [rewrite B; destruct c; auto; contradiction|]. intros x Hx. exact (C x Hx). }
    rewrite E. cbn [bind]. eexists. split; [reflexivity|]. unfold done. cbn [vs_first vs_context vs_constants vs_variables vs_with_context]. repeat split; auto.
  Qed.
  (** an argument of IfElse *)
  Definition arg_of (g : env) (i : item) : res arg := match i with IExpr e => do v <- peval g e; Ok (AValue v) | _ => do c <- command_of g i; Ok (ACommand c) end.
  Lemma blocked_runs : forall g body is cs, body <> [] -> Forall not_test is -> List.length is = List.length body -> mapM (command_of g) is = Ok cs ->
    exists com, mapM (arg_of g) (blocked body is) = Ok [ACommand com] /\ (com = Sequence cs \/ cs = [com]).
  Proof.
    intros g body is cs Ne Nt L M. unfold blocked. destruct (Nat.ltb_spec 1 (List.length body)) as [K|K].
    - exists (Sequence cs). split; auto. cbn [mapM arg_of]. cbn [Source.command_of]. rewrite M. reflexivity.
    - destruct is as [|i [|j is]]; cbn [List.length] in L; [destruct body; [contradiction|discriminate]| |lia]. inversion Nt; subst. cbn [mapM] in M. destruct (command_of g i) as [com|e] eqn:E; [|discriminate]. injection M as <-. exists com. split; auto. cbn [mapM]. destruct i; try contradiction; unfold arg_of; rewrite E; reflexivity.
  Qed.

  Lemma branches_text : forall v (V : string -> Prop) l, (forall c, In c l -> good_text (fst c) /\ forall x, vars (fst c) x <-> V x) -> forall i bs0, exists r bs1 args,
    rendered (fun c => render (fst c)) l bs0 = Ok (r, bs0 ++ bs1) /\ numbered_from (List.length bs0) bs1 /\ Forall (fun b => b <> []) r /\ List.length r = List.length l /\
    (exists m, forall n, m <= n ->
       (forall st, vs_first st = false -> in_context CFor st = false -> (forall x, V x -> known st x = true) -> exists st', branches (visit n) false (tests v i r) st = Ok (st', args) /\ done V st st') /\
       (l <> [] -> visits_to V (branches (visit n) true (tests v i r)) args)) /\
    forall g, binds g (fun x => V x \/ x = v \/ In x (map fst bs1)) -> exists acts cs T, mapM (arg_of g) args = Ok acts /\ pair_up acts = Ok cs /\ coded_cases v i (List.length bs0) l cs T bs1.
  Proof.
    intros v V. induction l as [|c l IH]; intros G i bs0.
    - exists [], [], []. cbn [rendered]. rewrite app_nil_r. split; [reflexivity|]. split; [reflexivity|]. split; [constructor|]. split; [reflexivity|]. split.
      + exists 0. intros n _. split; [|congruence]. intros st A B C. exists st. split; [reflexivity|]. unfold done. repeat split; auto. exists []. now rewrite app_nil_r.
      + intros g _. eexists _, _, _. split; [reflexivity|]. split; [reflexivity|constructor].
    - destruct (G c (or_introl eq_refl)) as (Gc & Vc). destruct (Gc bs0) as (body & bs1 & is & R1 & N1 & (W1 & W2 & W3 & m1 & W4) & C1).
      destruct (IH (fun d Hd => G d (or_intror Hd)) (1 + i) (bs0 ++ bs1)) as (r & bs2 & args & R2 & N2 & L1 & L2 & (m2 & L3) & C2).
      exists (body :: r), (bs1 ++ bs2), (IExpr (rewrite (test_of v i)) :: blocked body is ++ args). cbn [rendered]. rewrite R1. cbn [bind]. rewrite R2. cbn [bind]. rewrite app_assoc. split; [reflexivity|]. split; [apply numbered_app; [exact N1|rewrite app_length in N2; exact N2]|]. split; [now constructor|]. split; [cbn; now rewrite L2|]. split.
      + exists (Nat.max m1 m2). intros n Hn. destruct (L3 n ltac:(lia)) as (B1 & _). pose proof (visits_ext _ _ _ _ Vc (block_visits _ _ _ _ (W4 n ltac:(lia)))) as Vb.
        assert (Rest : forall (st0 st1 : vstate) v0, done V st0 st1 -> vs_first st0 = false -> in_context CFor st0 = false -> v0 st0 = Ok (st1, blocked body is) ->
          exists st2, (do (st1, i0) <- v0 st0; do (st2, j) <- branches (visit n) false (tests v (1 + i) r) st1; Ok (st2, IExpr (rewrite (test_of v i)) :: i0 ++ j)) = Ok (st2, IExpr (rewrite (test_of v i)) :: blocked body is ++ args) /\ done V st0 st2).
        { intros st0 st1 v0 D1 A B E. pose proof D1 as (F1 & F2 & F3 & F4 & F5 & F6). destruct (B1 st1 F1) as (st2 & E2 & D2); [now rewrite (context_same _ st0)|exact F5|]. exists st2. rewrite E. cbn [bind]. rewrite E2. split; [reflexivity|].
          destruct (done_trans V V st0 st1 st2 D1 D2) as (G1 & G2 & G3 & G4 & G5 & G6). unfold done. repeat (split; [auto; fail|]). intros x Hx. apply G6. tauto. }
        split.
        * intros st A B C. destruct (within_visits V CElif _ _ Vb st A B) as (st1 & E1 & D1); [discriminate|intros x Hx; rewrite C by auto; now rewrite orb_true_r|]. cbn [tests branches]. exact (Rest st st1 (within CElif (block (visit n) body)) D1 A B E1).
        * intros _ st Hr. pose proof Hr as (A & B & _). destruct (Vb st Hr) as (st1 & E1 & D1). cbn [tests branches]. exact (Rest st st1 (block (visit n) body) D1 A B E1).
      + intros g Hg. destruct (C1 g) as (cs & T & M1 & K1); [intros x Hx; apply Hg; rewrite map_app, in_app_iff; rewrite <- Vc; tauto|]. destruct (C2 g) as (acts & ds & L & M2 & P2 & K2); [intros x Hx; apply Hg; rewrite map_app, in_app_iff; tauto|].
        destruct (blocked_runs g body is cs W1 W2 W3 M1) as (com & M3 & K3).
        exists (AValue (PTr (bv_event v i)) :: ACommand com :: acts), ((Some (bv_event v i), com) :: ds), (fun f a => (ind (picked v i) a * T f a + L f a)%R). split; [|split].
        * cbn [mapM]. unfold arg_of at 1. unfold test_of. rewrite branch_reads by (intros z <-; apply Hg; auto). cbn [bind]. rewrite (mapM_app _ _ (arg_of g) _ _ [ACommand com] acts M3 M2). reflexivity.
        * cbn [pair_up bind]. rewrite P2. reflexivity.
        * rewrite app_length in K2. apply cases_cons with (cs := cs); auto.
  Qed.
  Lemma sum_text : forall l, (forall c, In c l -> good_text (fst c)) -> wf_spe (SumSPE l) -> good_text (SumSPE l).
  Proof.
    intros l G W bs0. destruct l as [|c [|c' l]].
    - destruct W as (_ & W & _). exfalso. cbn in W. lra.
    - destruct (G c (or_introl eq_refl) bs0) as (body & bs1 & is & R & Nb & Wr & C). exists body, bs1, is. split; [exact R|]. split; [exact Nb|]. split; [exact Wr|].
      intros g Hg. destruct (C g Hg) as (cs & T & M & K). exists cs, T. split; auto. now apply coded_one.
    - set (ll := c :: c' :: l) in *. set (v := branch_var (List.length bs0)). set (b0 := (v, branch_dist lexp (map snd ll))).
      destruct (branches_text v (vars (SumSPE ll)) ll ltac:(intros d Hd; split; [now apply G|intros x; symmetry; now apply (sum_vars dlaw)]) 0 (bs0 ++ [b0])) as (r & bs1 & args & R & Nb & L1 & L2 & (m & L3) & C).
      assert (Er : exists b r', r = b :: r') by (destruct r; [discriminate L2|eauto]). destruct Er as (b & r' & ->).
      exists (if_chain v 0 (b :: r')), (b0 :: bs1), [IIfElse args]. split; [|split; [unfold numbered_from in *; rewrite app_length, Nat.add_comm in Nb; cbn [map fst List.length seq]; f_equal; exact Nb|split]].
      + change (render (SumSPE ll) bs0) with (do (r, bs') <- rendered (fun c => render (fst c)) ll (bs0 ++ [b0]); do _ <- (if existsb is_nil r then Raise SyntaxError else Ok tt); Ok (if_chain v 0 r, bs')). rewrite R. cbn [bind].
        replace (existsb is_nil (b :: r')) with false; [cbn [bind]; rewrite <- app_assoc; reflexivity|]. symmetry. apply not_true_is_false. intros K. apply existsb_exists in K. destruct K as (z & Hz & Nz). rewrite Forall_forall in L1. destruct z; [|discriminate Nz]. now apply (L1 [] Hz).
      + split; [discriminate|]. split; [repeat constructor|]. split; [reflexivity|]. exists (1 + m). intros [|n] Hn; [lia|]. destruct (L3 n ltac:(lia)) as (_ & B). specialize (B ltac:(discriminate)). intros st (A1 & A2 & A3).
        destruct (within_visits _ CIf _ _ B st A1 A2) as (st' & E & Dn); [discriminate|intros x Hx; cbn [ctx_eqb]; rewrite orb_false_r; auto|]. exists st'. split; [|exact Dn]. cbn [if_chain]. rewrite each_one.
        change (XCmp (XName v) [(CEq, XText (nat_text 0))]) with (test_of v 0). cbn [Source.visit]. unfold visit_If. rewrite unroll_chain. replace (2 <=? List.length (tests v 0 (b :: r'))) with true; [cbn [passert bind]; rewrite E; reflexivity|].
        destruct r' as [|b' r']; [discriminate L2|reflexivity].
      + intros g Hg. destruct (C g) as (acts & cs & T & M & P & K); [intros x [Hx|[->|Hx]]; apply Hg; cbn [map fst In]; auto|]. exists [IfElse cs], T. split.
        * cbn [mapM Source.command_of]. change (mapM (arg_of g) args = Ok acts) in M. unfold arg_of in M. rewrite M. cbn [bind]. rewrite P. reflexivity.
        * rewrite app_length in K. cbn [List.length] in K. rewrite Nat.add_comm in K. now apply coded_sum.
  Qed.

  Theorem text_good : forall s, wf_spe s -> renderable s -> typed no_env s -> good_text s.
  Proof.
    induction s using spe_ind'; intros W Re T.
    - now apply real_text.
    - destruct Re.
    - now apply nominal_text.
    - apply sum_text; auto. intros c Hc. apply H; auto; [now apply (sum_wf dlaw l)|exact (All_In _ _ _ _ Re Hc)|eapply every_sum; eauto].
    - apply product_text; auto. intros c Hc. apply H; auto; [exact (All_In _ _ _ _ (proj1 (proj2 W)) Hc)|exact (All_In _ _ _ _ Re Hc)|eapply every_prod; eauto].
  Qed.
End Visit.
