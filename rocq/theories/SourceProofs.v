(** The translation of a program has the meaning of the program. *)
From Coq Require Import List Bool String Reals Lra Lia ZArith FunctionalExtensionality Classical.
From Verif Require Import Base Num Sets SetSpec Poly Trans TransSpec Dnf DnfSpec Logs Spe SpeSpec SpeFacts SpeOps Prog ProgSpec ProgProofs Source SourceSpec SourceExpr SourceKernel SourceVisit.
Import ListNotations.
Local Open Scope R_scope.

Section Proofs.
  Context {N : numsys} (io : iterorder N) (po : polyoracle N) (fuel : nat).
  Context {S : logsys} {D : distsys N S} (dlaw : dist D -> (fval -> R) -> R).
  Notation expr := (expr N).
  Notation stmt := (stmt N).
  Notation item := (item N).
  Notation vstate := (vstate N).
  Notation command := (command (N:=N) (D:=D)).
  Notation env := (env (N:=N)).
  Notation pyval := (pyval (N:=N)).
  Notation kernel := ProgSpec.kernel.
  Context (call : string -> list pyval -> list (string * pyval) -> res pyval).
  Context (deval : env -> expr -> res (distribution (N:=N) (D:=D))) (aeval : env -> expr -> res (assignment (N:=N))).
  Context (isdist : string -> bool) (unparse : expr -> expr -> string).
  Notation peval := (peval io po fuel call).
  Notation seval := (seval peval).
  Notation term := (term peval).
  Notation cond := (cond peval).
  Notation true_at := (true_at peval).
  Notation visit := (visit isdist unparse).
  Notation grow := (grow (N:=N) isdist).
  Notation smean := (smean peval isdist deval dlaw).
  Notation sassign := (sassign peval isdist deval dlaw).
  Notation thread := (thread (N:=N) isdist).
  Notation command_of := (command_of io po fuel call deval aeval).
  Notation meaning := (meaning dlaw).
  Notation run := (run dlaw).
  Notation target := (target peval).
  Context (w : asg).
  Notation sane := (sane peval isdist deval dlaw w).
  Notation sane_assign := (sane_assign peval isdist).
  Notation sanes := (sanes (N:=N) isdist).
  Notation test_ok := (test_ok peval).
  Notation meas := (meas w).
  Notation agree := (agree w).
  Notation able := (able w dlaw).

  (** ** Tests *)
  Definition tests (v : pyval) (o : option (tr N)) : Prop := (exists t, v = PTr t /\ o = Some t) \/ (v = PBool true /\ o = None).
  Lemma test_at : forall g e v o a, cond g e -> peval g (rewrite e) = Ok v -> tests v o -> seval g e a <> None -> (test o a <-> true_at g e a).
  Proof.
    intros g e v o a C H T Df. destruct (seval g e a) as [x|] eqn:E; [|congruence]. destruct (cond_ok io po fuel call g e v a x C H E) as (b & -> & F). unfold SourceSpec.true_at. rewrite E.
    destruct F as [->|(ev & -> & _ & Ho & _)]; destruct T as [(t & Ht & ->)|(Ht & ->)]; try discriminate Ht; injection Ht as ->; cbn [test].
    - tauto.
    - rewrite Ho. split; [now intros ->|now intros [= ->]].
  Qed.
  Lemma test_null : forall g e v o K1 K2, test_ok g e K2 w -> peval g (rewrite e) = Ok v -> tests v o -> agree K1 K2 -> meas K1 ->
    K1 (ind (fun a => ~ (test o a <-> true_at g e a))) w = 0.
  Proof.
    intros g e v o K1 K2 (C & Z) H T A M. apply (me_sub w K1 M (fun a => seval g e a = None)); [rewrite A; auto with bnd|]. intros a Ha. apply NNPP. intros Df. apply Ha. now apply (test_at g e v).
  Qed.
  Lemma not_iff : forall (P Q : asg -> Prop) K, meas K -> K (ind (fun a => ~ (P a <-> Q a))) w = 0 -> K (ind (fun a => ~ (~ P a <-> ~ Q a))) w = 0.
  Proof. intros P Q K M Z. apply (me_sub w K M _ _ Z). intros a H K'. apply H. tauto. Qed.

  (** ** Conditional expressions *)
  Lemma smean_unroll : forall g t v k, smean g k (unroll_ifexp [t] v) = sassign g k t v.
  Proof.
    intros g t. induction v; intros k; try reflexivity. cbn [unroll_ifexp]. rewrite <- unroll_case. cbn [SourceSpec.smean SourceSpec.thread fold_left SourceSpec.sassign].
    extensionality K. rewrite IHv3. reflexivity.
  Qed.
  Lemma sane_unroll : forall g t v k K, sane_assign g k t v K w -> sane g k (unroll_ifexp [t] v) K.
  Proof.
    intros g t. induction v; intros k K H; try exact H. cbn [unroll_ifexp]. rewrite <- unroll_case. cbn [SourceSpec.sane_assign] in H. destruct H as (H1 & H2 & H3).
    cbn [SourceSpec.sane SourceSpec.sanes fold_left]. split; [exact H1|]. split; intros Z; (split; [|exact I]); [apply H2; exact Z|]. apply IHv3, H3, Z.
  Qed.
  Lemma solid_unroll : forall t v, solid (N:=N) (unroll_ifexp [t] v).
  Proof.
    intros t. induction v; try exact I. cbn [unroll_ifexp]. rewrite <- unroll_case. cbn [solid All branch_ok writes]. split; [exact I|]. split; [split; exact I|]. split; [right; destruct v3; exact I|]. split; [exact IHv3|exact I].
  Qed.

  (** ** Statements and blocks *)
  Definition means (v : stmt -> visitor (N:=N)) : Prop := forall s st st' is cs g K1 K2, v s st = Ok (st', is) -> vs_first st = false -> mapM (command_of g) is = Ok cs ->
    able (Sequence cs) K1 -> agree K1 K2 -> meas K1 -> solid s -> sane g (known st) s K2 -> agree (run cs K1) (smean g (known st) s K2).

  Lemma mapM_app_inv : forall A B (f : A -> res B) l m r, mapM f (l ++ m) = Ok r -> exists a b, mapM f l = Ok a /\ mapM f m = Ok b /\ r = a ++ b.
  Proof.
    induction l as [|x l IH]; intros m r H; cbn [app mapM] in H.
    - exists [], r. auto.
    - inv_bind H. inv_bind H. injection H as <-. destruct (IH _ _ E0) as (a & b & E1 & E2 & ->). exists (r0 :: a), b. cbn [mapM]. rewrite E, E1. auto.
  Qed.
  Lemma each_means : forall v l st st' is cs g K1 K2, visits isdist v -> means v -> each v l st = Ok (st', is) -> vs_first st = false -> mapM (command_of g) is = Ok cs ->
    able (Sequence cs) K1 -> agree K1 K2 -> meas K1 -> All solid l -> sanes (smean g) (sane g) (known st) l K2 -> agree (run cs K1) (thread (smean g) (known st) l K2).
  Proof.
    intros v l. induction l as [|s l IH]; intros st st' is cs g K1 K2 V Me H F Hc A Ag M So Sa; cbn [each] in H.
    - injection H as <- <-. cbn in Hc. injection Hc as <-. exact Ag.
    - inv_bind H. destruct r as (st1, i). inv_bind H. destruct r as (st2, j). injection H as <- <-. destruct So as (S1 & S2). destruct Sa as (Sa1 & Sa2).
      destruct (mapM_app_inv _ _ _ _ _ _ Hc) as (a & b & Ha & Hb & ->). apply able_app in A. destruct A as (A1 & A2). destruct (V _ _ _ _ E F) as (F1 & _ & K1' & _).
      rewrite run_app. cbn [SourceSpec.thread]. rewrite <- K1'. rewrite <- K1' in Sa2.
      apply (IH st1 st2 j); auto; [exact (Me _ _ _ _ _ _ _ _ E F Ha A1 Ag M S1 Sa1)|now apply run_meas].
  Qed.
  Lemma block_means : forall v l st st' is cs g K1 K2, visits isdist v -> means v -> block v l st = Ok (st', is) -> vs_first st = false -> mapM (command_of g) is = Ok cs ->
    able (Sequence cs) K1 -> agree K1 K2 -> meas K1 -> All solid l -> sanes (smean g) (sane g) (known st) l K2 -> agree (run cs K1) (thread (smean g) (known st) l K2).
  Proof.
    intros v l st st' is cs g K1 K2 V Me H F Hc A Ag M So Sa. unfold block in H. inv_bind H. destruct r as (st1, i). injection H as <- <-.
    assert (E0 : each v l st = Ok (st1, i)) by (destruct st; cbn in F; subst; exact E). clear E. rename E0 into E.
    destruct (_ || _)%bool.
    - cbn [mapM Source.command_of] in Hc. inv_bind Hc. inv_bind E0. injection E0 as <-. cbn [bind] in Hc. injection Hc as <-. inversion A as [| | | | | | | |? ? ? A1 A2]; subst.
      exact (each_means v l _ _ _ _ _ _ _ V Me E F E1 A1 Ag M So Sa).
    - exact (each_means v l _ _ _ _ _ _ _ V Me E F Hc A Ag M So Sa).
  Qed.

  (** ** if *)
  Definition argof (g : env) (i : item) : res (arg (N:=N) (D:=D)) :=
    match i with IExpr e => do v <- peval g e; Ok (AValue v) | _ => do c <- command_of g i; Ok (ACommand c) end.
  Lemma one_item : forall A (l : list A), List.length l = 1%nat -> exists x, l = [x].
  Proof. intros A [|x [|]] H; try discriminate. eauto. Qed.
  Lemma branch_head : forall v first t b l st st' is args bs g, visits isdist v -> means v -> branches v first ((t, b) :: l) st = Ok (st', is) -> vs_first st = false -> global_only st = false ->
    branch_ok b -> All solid b -> mapM (argof g) is = Ok args -> pair_up args = Ok bs ->
    exists u o c st1 js args' bs', peval g (rewrite t) = Ok u /\ tests u o /\ bs = (o, c) :: bs' /\
      branches v false l st1 = Ok (st', js) /\ vs_first st1 = false /\ global_only st1 = false /\ known st1 = fold_left grow b (known st) /\ mapM (argof g) js = Ok args' /\ pair_up args' = Ok bs' /\
      forall K1 K2, able c K1 -> agree K1 K2 -> meas K1 -> sanes (smean g) (sane g) (known st) b K2 -> agree (meaning c K1) (thread (smean g) (known st) b K2).
  Proof.
    intros v first t b l st st' is args bs g V Me H F Go Bo So Ha Hp. cbn [branches] in H. inv_bind H. destruct r as (st1, i). inv_bind H. destruct r as (st2, j). injection H as <- <-.
    assert (X : exists st0 st3, block v b st0 = Ok (st3, i) /\ known st0 = known st /\ vs_first st0 = false /\ global_only st0 = false /\
      vs_first st1 = false /\ known st1 = fold_left grow b (known st) /\ vs_context st1 = vs_context st).
    { destruct first.
      - destruct (block_step isdist _ _ _ _ _ V E F) as (F1 & C1 & K1 & _). exists st, st1. repeat split; auto.
      - unfold within in E. inv_bind E. destruct r as (st3, i3). injection E as <- <-. destruct (block_step isdist _ _ _ _ _ V E1 F) as (F1 & C1 & K1 & _). exists (vs_with_context (vs_context st ++ [CElif]) st), st3.
        repeat split; auto. unfold global_only. cbn. destruct (vs_context st) as [|c0 [|c1 l0]]; cbn; auto; destruct c0; auto. }
    destruct X as (st0 & st3 & Bl & K0 & F0 & G0 & F1 & K1 & C1). destruct (block_step isdist _ _ _ _ _ V Bl F0) as (_ & _ & _ & _ & P0 & L0). destruct (one_item _ _ (L0 G0 Bo)) as (x & ->). inversion P0 as [|? ? Px _]; subst.
    cbn [app mapM] in Ha. inv_bind Ha. rename r into a1. cbn [argof] in E1. inv_bind E1. rename r into u. injection E1 as <-. inv_bind Ha. rename r into more. injection Ha as <-. inv_bind E1. rename r into a2. inv_bind E1. rename r into args'. injection E1 as <-.
    assert (X : exists c, command_of g x = Ok c /\ a2 = ACommand c) by (destruct x; try destruct Px; cbn [argof] in E3; inv_bind E3; injection E3 as <-; eauto). destruct X as (c & Hc & ->).
    cbn [pair_up] in Hp. inv_bind Hp. rename r into o. inv_bind Hp. rename r into bs'. injection Hp as <-.
    exists u, o, c, st1, j, args', bs'. split; auto. split. { unfold tests. destruct u as [t0| | |[]| | |]; try discriminate E1; injection E1 as <-; eauto. }
    repeat split; auto; [unfold global_only in *; now rewrite C1|]. intros L1 L2 Ab Ag M Sa.
    change (meaning c L1) with (run [c] L1). rewrite <- K0 in Sa |- *. apply (block_means v b st0 st3 [x] [c] g L1 L2 V Me Bl F0); auto.
    - cbn [mapM]. now rewrite Hc.
    - constructor; auto. constructor.
  Qed.

  Definition cases_of (bs : list (option (tr N) * command)) := map (fun b => (test (fst b), meaning (snd b))) bs.
  Lemma mass_one : forall (K : kernel) (P T : asg -> Prop), (forall a, T a) -> K (ind P) w <> 0 -> restrict K P (ind T) w = 1.
  Proof.
    intros K P T HT Z. unfold restrict. rewrite (me_ext w K (fun a => ind T a * ind P a) (ind P)); [field; auto|]. intros a. rewrite (ind_true _ T a (HT a)). ring.
  Qed.
  Lemma chain_ok : forall v, visits isdist v -> means v -> forall s, is_SIf s -> forall first st st' is args bs g K1 K2 f, branches v first (unroll_if s) st = Ok (st', is) -> vs_first st = false -> global_only st = false ->
    mapM (argof g) is = Ok args -> pair_up args = Ok bs -> able (IfElse bs) K1 -> agree K1 K2 -> meas K1 -> solid s -> sane g (known st) s K2 -> bnd f ->
    nest w (cases_of bs) K1 f = smean g (known st) s K2 f w.
  Proof.
    intros v V Me. induction s as [s Hs|c b|c b s IHs|c b s s' o] using if_ind; intros Is first st st' is args bs g K1 K2 f Hb F Go Ha Hp Ab Ag M So Sa Hf; [contradiction| | |].
    all: destruct So as (Bb & Sb & Bo & So'); destruct Sa as (Te & Sy & Sn).
    - (* no else *)
      cbn [unroll_if] in Hb. destruct (branch_head v first c b [] st st' is args bs g V Me Hb F Go Bb Sb Ha Hp) as (u & q & k & st1 & js & args' & bs' & Hu & Tu & -> & Hr & F1 & G1 & K1' & Ha' & Hp' & Km).
      cbn [branches] in Hr. injection Hr as <- <-. cbn in Ha'. injection Ha' as <-. cbn in Hp'. injection Hp' as <-.
      cbn [cases_of map fst snd nest]. cbn [SourceSpec.smean]. unfold only_if. rewrite Rmult_0_r, Rplus_0_r. pose proof (test_null g c u q K1 K2 Te Hu Tu Ag M) as Z.
      rewrite <- (mass_agree w K1 K2 _ _ M Ag Z). destruct (Req_EM_T (K1 (ind (test q)) w) 0) as [Z0|Z0]; [rewrite Z0; ring|]. f_equal.
      apply Km; auto; [now apply (able_first w dlaw q k [])|now apply restrict_agree|now apply me_restrict|]. apply Sy. rewrite <- (mass_agree w K1 K2 _ _ M Ag Z). auto.
    - (* else with one statement *)
      assert (Cases : is_SIf s \/ unroll_if (SIf c b [s]) = [(c, b); (XBool true, [s])]) by (destruct s; try (right; reflexivity); left; exact I).
      assert (Hd : exists rest, unroll_if (SIf c b [s]) = (c, b) :: rest) by (destruct s; eexists; reflexivity). destruct Hd as (rest & Er). rewrite Er in Hb.
      destruct (branch_head v first c b rest st st' is args bs g V Me Hb F Go Bb Sb Ha Hp) as (u & q & k & st1 & js & args' & bs' & Hu & Tu & -> & Hr & F1 & G1 & K1' & Ha' & Hp' & Km).
      pose proof (test_null g c u q K1 K2 Te Hu Tu Ag M) as Z. pose proof (not_iff _ _ _ M Z) as Zn.
      cbn [cases_of map fst snd nest]. cbn [SourceSpec.smean]. unfold either. rewrite <- (mass_agree w K1 K2 _ _ M Ag Z), <- (mass_agree w K1 K2 _ _ M Ag Zn). f_equal.
      { destruct (Req_EM_T (K1 (ind (test q)) w) 0) as [Z0|Z0]; [rewrite Z0; ring|]. f_equal.
        apply Km; auto; [now apply (able_first w dlaw q k bs')|now apply restrict_agree|now apply me_restrict|]. apply Sy. rewrite <- (mass_agree w K1 K2 _ _ M Ag Z). auto. }
      destruct (Req_EM_T (K1 (ind (fun a => ~ test q a)) w) 0) as [Z0|Z0]; [rewrite Z0; ring|]. f_equal.
      pose proof (able_rest w dlaw q k bs' K1 Ab M Z0) as Ab'. pose proof (restrict_agree w K1 K2 _ _ M Ag Zn) as Ag'. pose proof (me_restrict w K1 M (fun a => ~ test q a)) as M'.
      assert (Sn' : sanes (smean g) (sane g) (known st1) [s] (restrict K2 (fun a => ~ true_at g c a))) by (rewrite K1'; apply Sn; rewrite <- (mass_agree w K1 K2 _ _ M Ag Zn); auto).
      cbn [SourceSpec.thread]. rewrite <- K1'. destruct Cases as [Is'|Eu].
      + assert (rest = unroll_if s) by (destruct s; try destruct Is'; cbn in Er; injection Er as <-; reflexivity). subst rest.
        destruct Sn' as (Sn' & _). apply (IHs Is' false st1 st' js args' bs' g _ _ f Hr F1 G1 Ha' Hp' Ab' Ag' M'); auto. apply So'.
      + rewrite Eu in Er. injection Er as <-. assert (Bs : branch_ok [s]) by (destruct Bo as [Bo|Bo]; [discriminate Bo|exact Bo]).
        destruct (branch_head v false (XBool true) [s] [] st1 st' js args' bs' g V Me Hr F1 G1 Bs So' Ha' Hp') as (u2 & q2 & k2 & st2 & js2 & args2 & bs2 & Hu2 & Tu2 & -> & Hr2 & F2 & G2 & K2' & Ha2 & Hp2 & Km2).
        cbn [branches] in Hr2. injection Hr2 as <- <-. cbn in Ha2. injection Ha2 as <-. cbn in Hp2. injection Hp2 as <-. cbn in Hu2. injection Hu2 as <-. destruct Tu2 as [(? & ? & _)|(_ & ->)]; [discriminate|].
        cbn [map fst snd nest]. change (test None) with (fun _ : asg => True). rewrite Rmult_0_r, Rplus_0_r. rewrite (mass_one K1 (fun a => ~ test q a) (fun _ => True)) by auto. rewrite Rmult_1_l.
        assert (Sm : same w (restrict (restrict K1 (fun a => ~ test q a)) (fun _ => True)) (restrict K1 (fun a => ~ test q a))).
        { intros h. unfold restrict at 1. rewrite (mass_one K1 (fun a => ~ test q a) (fun _ => True)) by auto. rewrite (me_ext w _ (fun a => h a * ind (fun _ => True) a) h) by (intro a; rewrite (ind_true _ (fun _ => True) a I); ring). field. }
        rewrite (meaning_local w dlaw k2 _ _ Sm f).
        apply Km2; auto. apply (able_same w dlaw k2 (restrict (restrict K1 (fun a => ~ test q a)) (test (N:=N) None))); auto. apply (able_first w dlaw None k2 []); auto. rewrite (mass_one K1); [lra|intros; exact I|auto].
    - (* else with several statements *)
      cbn [unroll_if] in Hb. destruct (branch_head v first c b _ st st' is args bs g V Me Hb F Go Bb Sb Ha Hp) as (u & q & k & st1 & js & args' & bs' & Hu & Tu & -> & Hr & F1 & G1 & K1' & Ha' & Hp' & Km).
      pose proof (test_null g c u q K1 K2 Te Hu Tu Ag M) as Z. pose proof (not_iff _ _ _ M Z) as Zn.
      cbn [cases_of map fst snd nest]. cbn [SourceSpec.smean]. unfold either. rewrite <- (mass_agree w K1 K2 _ _ M Ag Z), <- (mass_agree w K1 K2 _ _ M Ag Zn). f_equal.
      { destruct (Req_EM_T (K1 (ind (test q)) w) 0) as [Z0|Z0]; [rewrite Z0; ring|]. f_equal.
        apply Km; auto; [now apply (able_first w dlaw q k bs')|now apply restrict_agree|now apply me_restrict|]. apply Sy. rewrite <- (mass_agree w K1 K2 _ _ M Ag Z). auto. }
      destruct (Req_EM_T (K1 (ind (fun a => ~ test q a)) w) 0) as [Z0|Z0]; [rewrite Z0; ring|]. f_equal.
      pose proof (able_rest w dlaw q k bs' K1 Ab M Z0) as Ab'. pose proof (restrict_agree w K1 K2 _ _ M Ag Zn) as Ag'. pose proof (me_restrict w K1 M (fun a => ~ test q a)) as M'.
      assert (Sn' : sanes (smean g) (sane g) (known st1) (s :: s' :: o) (restrict K2 (fun a => ~ true_at g c a))) by (rewrite K1'; apply Sn; rewrite <- (mass_agree w K1 K2 _ _ M Ag Zn); auto).
      rewrite <- K1'. assert (Bs : branch_ok (s :: s' :: o)) by exact I.
      destruct (branch_head v false (XBool true) (s :: s' :: o) [] st1 st' js args' bs' g V Me Hr F1 G1 Bs So' Ha' Hp') as (u2 & q2 & k2 & st2 & js2 & args2 & bs2 & Hu2 & Tu2 & -> & Hr2 & F2 & G2 & K2' & Ha2 & Hp2 & Km2).
      cbn [branches] in Hr2. injection Hr2 as <- <-. cbn in Ha2. injection Ha2 as <-. cbn in Hp2. injection Hp2 as <-. cbn in Hu2. injection Hu2 as <-. destruct Tu2 as [(? & ? & _)|(_ & ->)]; [discriminate|].
      cbn [map fst snd nest]. change (test None) with (fun _ : asg => True). rewrite Rmult_0_r, Rplus_0_r. rewrite (mass_one K1 (fun a => ~ test q a) (fun _ => True)) by auto. rewrite Rmult_1_l.
      assert (Sm : same w (restrict (restrict K1 (fun a => ~ test q a)) (fun _ => True)) (restrict K1 (fun a => ~ test q a))).
      { intros h. unfold restrict at 1. rewrite (mass_one K1 (fun a => ~ test q a) (fun _ => True)) by auto. rewrite (me_ext w _ (fun a => h a * ind (fun _ => True) a) h) by (intro a; rewrite (ind_true _ (fun _ => True) a I); ring). field. }
      rewrite (meaning_local w dlaw k2 _ _ Sm f).
      apply Km2; auto. apply (able_same w dlaw k2 (restrict (restrict K1 (fun a => ~ test q a)) (test (N:=N) None))); auto. apply (able_first w dlaw None k2 []); auto. rewrite (mass_one K1); [lra|intros; exact I|auto].
  Qed.

  (** ** for *)
  Lemma bad_unable : forall e K, ~ able (bad e) K.
  Proof. intros e K A. unfold bad in A. inversion A; subst; discriminate. Qed.
  Lemma one_able : forall c K, able c K -> able (Sequence [c]) K.
  Proof. intros c K A. constructor; auto. constructor. Qed.
  Lemma loop_means : forall v b x st st' i g, visits isdist v -> means v -> block v b st = Ok (st', [i]) -> vs_first st = false -> All solid b -> forall l K1 K2,
    let f := (fun z => match command_of ((x, PNum (nint z)) :: g) i with Ok c => c | Raise e => bad e end) in
    able (Sequence (map f l)) K1 -> agree K1 K2 -> meas K1 ->
    loop_ok (fun z => thread (smean ((x, PNum (nint z)) :: g)) (known st) b) (fun z => sanes (smean ((x, PNum (nint z)) :: g)) (sane ((x, PNum (nint z)) :: g)) (known st) b) l K2 ->
    agree (fold_left (fun K z => meaning (f z) K) l K1) (fold_left (fun K z => thread (smean ((x, PNum (nint z)) :: g)) (known st) b K) l K2).
  Proof.
    intros v b x st st' i g V Me Bl F So l. induction l as [|z l IH]; intros K1 K2 f A Ag M Lo; [exact Ag|].
    cbn [fold_left]. cbn [map] in A. inversion A as [| | | | | | | |? ? ? A1 A2]; subst. destruct Lo as (L1 & L2).
    apply (IH _ _ A2); [|now apply meaning_meas|exact L2]. unfold f in *. destruct (command_of ((x, PNum (nint z)) :: g) i) as [c|e] eqn:Hc; [|now apply bad_unable in A1].
    change (meaning c K1) with (run [c] K1). apply (block_means v b st st' [i] [c] _ K1 K2 V Me Bl F); auto; [cbn [mapM]; now rewrite Hc|now apply one_able].
  Qed.
  Lemma int_zero : forall (z : Z), int_or TypeError (PNum (nint (n:=N) 0)) = Ok z -> z = 0%Z.
  Proof.
    intros z H. cbn in H. destruct (to_int (nint (n:=N) 0)) as [y|] eqn:E; [|discriminate]. injection H as <-. apply to_int_ok in E. rewrite nint_ok in E. now apply eq_IZR in E.
  Qed.

  (** ** for ... in switch *)
  Lemma firsts_in : forall X B (xs : list X) (P : X -> asg -> Prop) (h : X -> B) Q x, In (Q, x) (firsts (map (fun x => (P x, x)) xs)) -> In (Q, h x) (firsts (map (fun x => (P x, h x)) xs)).
  Proof.
    intros X B xs P h Q x H. replace (map (fun x => (P x, h x)) xs) with (map (fun p => (fst p, h (snd p))) (map (fun x => (P x, x)) xs)) by (rewrite map_map; reflexivity).
    rewrite firsts_map. apply in_map_iff. exists (Q, x). auto.
  Qed.
  Lemma numbered_snd : forall A (l : list A), map snd (numbered l) = l.
  Proof.
    intros A l. unfold numbered. generalize 0%nat. induction l as [|a l IH]; intros n; cbn; [reflexivity|]. now rewrite IH.
  Qed.
  Lemma sum_zero : forall A (h : A -> R) l, (forall p, In p l -> h p = 0) -> sumR (map h l) = 0.
  Proof. induction l as [|p l IH]; intros H; [reflexivity|]. cbn [map]. change (sumR (?a :: ?l)) with (a + sumR l). rewrite IH by (intros; apply H; now right). rewrite (H p) by now left. ring. Qed.
  Lemma total_zero : forall K (l : list ((asg -> Prop) * (kernel -> kernel))) f, (forall m, In m (map snd l) -> forall L, m L f w = 0) -> total K l f w = 0.
  Proof.
    intros K l f H. apply sum_zero. intros p Hp. rewrite H; [ring|]. rewrite <- firsts_snd. now apply in_map.
  Qed.
  Lemma switch_means : forall v b x vs enumerated idx st st' i g K1 K2 f (l : list pyval) values, visits isdist v -> means v -> block v b st = Ok (st', [i]) -> vs_first st = false -> All solid b ->
    peval g values = Ok (if enumerated : bool then PEnum l else PColl l) -> mapM as_sval l = Ok vs ->
    let h := (fun n v => match switch_args enumerated idx n v with Some h => match command_of (h ++ g) i with Ok c => c | Raise e => bad e end | None => bad TypeError end) in
    able (Switch x vs h) K1 -> agree K1 K2 -> meas K1 -> bnd f ->
    (forall Q h, In (Q, h) (firsts (map (fun p => (matches x (fst p), snd p)) (cases peval g values idx))) -> K2 (ind Q) w <> 0 -> sanes (smean (h ++ g)) (sane (h ++ g)) (known st) b (restrict K2 Q)) ->
    meaning (Switch x vs h) K1 f w = total K2 (map (fun p => (matches x (fst p), thread (smean (snd p ++ g)) (known st) b)) (cases peval g values idx)) f w.
  Proof.
    intros v b x vs enumerated idx st st' i g K1 K2 f l values V Me Bl F So Hv Hl h A Ag M Hf Sa. inversion A as [| | | | |? ? ? ? A1| | |]; subst.
    cbn [ProgSpec.meaning]. destruct (switch_args (N:=N) enumerated idx 0 (VText "")) as [h0|] eqn:E0.
    - set (hh := fun p : nat * sval (N:=N) => match switch_args enumerated idx (fst p) (snd p) with Some h => h | None => [] end).
      assert (Ec : cases peval g values idx = map (fun p => (snd p, hh p)) (numbered vs)).
      { unfold cases, hh. rewrite Hv. destruct enumerated, idx as [|y [|y' [|]]]; cbn in E0; try discriminate; rewrite Hl; cbn [switch_args]; [reflexivity|].
        rewrite <- (numbered_snd _ vs) at 1. rewrite map_map. reflexivity. }
      rewrite Ec in *. rewrite map_map in *. cbn [fst snd] in *.
      apply (total_pair w _ (numbered vs) (fun p => matches x (snd p)) (fun p => meaning (h (fst p) (snd p))) (fun p => thread (smean (hh p ++ g)) (known st) b)); auto.
      intros Q p Hp Z. pose proof (A1 _ _ (firsts_in _ _ _ _ (fun p => h (fst p) (snd p)) Q p Hp) Z) as A2. pose proof (Sa _ _ (firsts_in _ _ _ _ hh Q p Hp)) as Sa2. rewrite <- (Ag (ind Q)) in Sa2 by auto with bnd. specialize (Sa2 Z).
      unfold h in A2 |- *. unfold hh in Sa2 |- *. cbn beta in A2. destruct (switch_args enumerated idx (fst p) (snd p)) as [h1|]; [|now apply bad_unable in A2].
      destruct (command_of (h1 ++ g) i) as [c|e] eqn:Hc; [|now apply bad_unable in A2]. change (meaning c (restrict K1 Q)) with (run [c] (restrict K1 Q)).
      apply (block_means v b st st' [i] [c] _ (restrict K1 Q) (restrict K2 Q) V Me Bl F); auto; [cbn [mapM]; now rewrite Hc|now apply one_able| |now apply me_restrict].
      apply restrict_agree; auto. apply (me_sub w K1 M (fun _ => False)); [|tauto]. rewrite (me_ext w K1 _ (fun _ => 0 * 0)); [|intro; rewrite ind_false; [ring|tauto]]. rewrite (me_scale w K1 M 0 (fun _ => 0)); [ring|]. auto with bnd.
    - assert (Ec : cases peval g values idx = []) by (unfold cases; rewrite Hv; destruct enumerated, idx as [|y [|y' [|]]]; cbn in E0; try discriminate; reflexivity).
      assert (En : forall n v, switch_args (N:=N) enumerated idx n v = None) by (intros; destruct enumerated, idx as [|y [|y' [|]]]; cbn in E0 |- *; try discriminate; reflexivity).
      rewrite Ec. cbn [map]. transitivity (total K2 (map (fun p => (matches x (snd p), fun _ _ _ => 0)) (numbered vs)) f w).
      + apply (total_pair w _ (numbered vs) (fun p => matches x (snd p)) (fun p => meaning (h (fst p) (snd p))) (fun p _ _ _ => 0)); auto.
        intros Q p Hp Z. pose proof (A1 _ _ (firsts_in _ _ _ _ (fun p => h (fst p) (snd p)) Q p Hp) Z) as A2. unfold h in A2. cbn beta in A2. rewrite En in A2. now apply bad_unable in A2.
      + rewrite total_zero; [reflexivity|]. intros m Hm L. rewrite map_map in Hm. apply in_map_iff in Hm. destruct Hm as (p & <- & _). reflexivity.
  Qed.

  (** ** assignments *)
  Lemma sassign_plain : forall g k t v K, is_if v = false -> sassign g k t v K =
    if is_array v then K else if existsb isdist (names v) then match target g t, deval g v with Some x, Ok d => draw dlaw x d K | _, _ => K end
    else if existsb k (names v) then match target g t with Some x => put x (seval g v) K | None => K end else K.
  Proof. intros g k t v K I. destruct v; try discriminate I; reflexivity. Qed.
  Lemma sane_plain : forall g k t v K, is_if v = false -> sane_assign g k t v K w ->
    if is_array v then True else if existsb isdist (names v) then rewrite v = v else if existsb k (names v) then term g v /\ K (ind (fun a => seval g v a = None)) w = 0 else True.
  Proof. intros g k t v K I H. destruct v; try discriminate I; exact H. Qed.
  Lemma the_var_target : forall g t x, the_var io po fuel call g t = Ok x -> target g t = Some x.
  Proof. intros g t x H. unfold the_var in H. unfold SourceSpec.target. inv_bind H. destruct r as [[]| | | | | |]; try discriminate. injection H as <-. now rewrite E. Qed.

  Lemma visit_means : forall n, means (visit n).
  Proof.
    induction n as [|n IH]; intros s st st' is cs g K1 K2 H F Hc A Ag M So Sa; [discriminate|]. cbn [Source.visit] in H. destruct s as [i|ts v|c b o|xs f args b|f args|].
    - injection H as <- <-. cbn in Hc. injection Hc as <-. exact Ag.
    - destruct (assign_one isdist unparse (Datatypes.S n) ts v st _ H) as (t & ->). destruct (is_if v) eqn:I.
      + assert (H' : visit n (unroll_ifexp [t] v) st = Ok (st', is)) by (destruct v; try discriminate I; exact H).
        cbn [SourceSpec.smean]. rewrite <- smean_unroll. apply (IH _ st st' is cs g K1 K2 H' F Hc A Ag M); [apply solid_unroll|now apply sane_unroll].
      + assert (H' : visit_Assign isdist unparse [t] v st = Ok (st', is)) by (destruct v; try discriminate I; exact H). cbn [SourceSpec.smean]. rewrite sassign_plain by auto. apply sane_plain in Sa; auto.
        destruct (assign_step isdist unparse t v st st' is I H' F) as (_ & [(-> & [Ha|(Ed & Ek)])|[(Ha & -> & Ed)|(Ha & -> & Ed & Ek)]]).
        * rewrite Ha. cbn in Hc. injection Hc as <-. exact Ag.
        * rewrite Ed, Ek. cbn in Hc. injection Hc as <-. destruct (is_array v); exact Ag.
        * rewrite Ha, Ed in *. rewrite Sa in Hc. cbn [mapM Source.command_of] in Hc. inv_bind Hc. injection Hc as <-. inv_bind E. inv_bind E. injection E as <-. rewrite (the_var_target _ _ _ E0), E1.
          inversion A as [| | | | | | | |? ? ? A1 A2]; subst. inversion A1 as [|? ? l ? Hd Wl| | | | | | |]; subst. intros f Hf. cbn [SourceKernel.run fold_left ProgSpec.meaning]. unfold draw. rewrite Hd. apply Ag. apply (kernel_bnd (den dlaw l)); [exact (den_kernel dlaw l Wl)|exact Hf].
        * rewrite Ha, Ed, Ek in *. destruct Sa as (Te & Z). rewrite (term_rewrite io po fuel call g v Te) in Hc. cbn [mapM Source.command_of] in Hc. inv_bind Hc. injection Hc as <-. inv_bind E. inv_bind E. destruct r1 as [u| | | | | |]; try discriminate. injection E as <-. rewrite (the_var_target _ _ _ E0).
          intros f Hf. cbn [SourceKernel.run fold_left ProgSpec.meaning]. unfold put.
          assert (B1 : bnd (fun a => f (upd a r0 (value_or (teval u a))))) by (destruct Hf as (C & HC); exists C; intro; apply HC). assert (B2 : bnd (fun a => f (upd a r0 (sval_or (seval g v a))))) by (destruct Hf as (C & HC); exists C; intro; apply HC).
          rewrite <- (Ag (fun a : asg => f (upd a r0 (sval_or (seval g v a)))) B2). apply (me_as w K1 M (fun a => seval g v a = None)); auto; [rewrite Ag; auto with bnd|]. intros a Hd. destruct (seval g v a) as [x|] eqn:Ex; [|now elim Hd].
          destruct (term_ok io po fuel call g v (PTr u) Te E1) as (_ & _ & _ & Hu). destruct (Hu a x Ex) as (y & -> & ->). reflexivity.
    - unfold visit_If in H. inv_bind H. inv_bind H. destruct r0 as (st1, i). injection H as <- <-. unfold within in E0. inv_bind E0. destruct r0 as (st2, j). injection E0 as <- <-.
      cbn [mapM] in Hc. inv_bind Hc. injection Hc as <-. cbn [Source.command_of] in E0. inv_bind E0. inv_bind E0. injection E0 as <-.
      inversion A as [| | | | | | | |? ? ? A1 A2]; subst. intros f Hf. cbn [SourceKernel.run fold_left ProgSpec.meaning].
      rewrite total_nest; auto; [|apply Forall_forall; intros p Hp; apply in_map_iff in Hp; destruct Hp as (q & <- & _); apply meaning_local].
      apply (chain_ok (visit n) (visit_step isdist unparse n) IH (SIf c b o) I true (vs_with_context (vs_context st ++ [CIf]) st) st2 j r1 r2 g K1 K2 f E1); auto.
      unfold global_only. cbn. destruct (vs_context st) as [|c0 [|c1 l0]]; cbn; auto; destruct c0; auto.
    - unfold visit_For in H. cbn [SourceSpec.smean]. cbn [SourceSpec.sane] in Sa. destruct (String.eqb f "range"); [|destruct (String.eqb f "switch"); [|discriminate]].
      + unfold visit_For_vanilla in H. destruct xs as [|x [|]]; try discriminate. inv_bind H. destruct r as (n0, n1). inv_bind H. destruct r as (st1, i). injection H as <- <-. unfold within in E0. inv_bind E0. destruct r as (st2, j). injection E0 as <- <-.
        cbn [mapM] in Hc. inv_bind Hc. injection Hc as <-. cbn [Source.command_of] in E0. inv_bind E0. inv_bind E0. inv_bind E0. inv_bind E0. destruct j as [|i [|]]; try discriminate. injection E0 as <-.
        assert (Eb : bounds peval g args = Some (r1, r3)).
        { destruct args as [|a1 [|a2 [|]]]; try discriminate; injection E as <- <-; cbn [bounds].
          - cbn in E2. injection E2 as <-. apply int_zero in E3. subst. unfold integer. rewrite E4, E5. reflexivity.
          - unfold integer. rewrite E2, E3, E4, E5. reflexivity. }
        rewrite Eb in *. inversion A as [| | | | | | | |? ? ? A1 A2]; subst. inversion A1; subst.
        match goal with H : able (Sequence _) _ |- _ => rename H into A3 end. clear A1 A2.
        exact (loop_means (visit n) b x (vs_with_context (vs_context st ++ [CFor]) st) st2 i g (visit_step isdist unparse n) IH E1 F So (range r1 r3) K1 K2 A3 Ag M Sa).
      + unfold visit_For_switch in H. destruct args as [|a1 [|a2 [|]]]; try discriminate. inv_bind H. inv_bind H. destruct r0 as (st1, i). injection H as <- <-. unfold within in E0. inv_bind E0. destruct r0 as (st2, j). injection E0 as <- <-.
        cbn [mapM] in Hc. inv_bind Hc. injection Hc as <-. cbn [Source.command_of] in E0. inv_bind E0. rewrite (the_var_target _ _ _ E2) in *. inv_bind E0. inv_bind E0. destruct r3 as (en, l). inv_bind E0. destruct j as [|i [|]]; try discriminate. injection E0 as <-.
        inversion A as [| | | | | | | |? ? ? A1 A2]; subst. intros f0 Hf. 
        apply (switch_means (visit n) b _ _ en xs (vs_with_context (vs_context st ++ [CSwitch]) st) st2 i g K1 K2 f0 l a2 (visit_step isdist unparse n) IH E1 F So); auto.
        destruct r2; try discriminate; injection E4 as <- <-; exact E3.
    - unfold visit_Call in H. cbn [SourceSpec.smean]. cbn [SourceSpec.sane] in Sa. destruct (String.eqb f "condition") eqn:Ef; [|destruct (String.eqb f "constrain") eqn:Ef'].
      + destruct args as [|e0 [|]]; try discriminate. injection H as <- <-. cbn [mapM Source.command_of] in Hc. inv_bind Hc. injection Hc as <-. inv_bind E. injection E as <-. unfold the_event in E0. inv_bind E0. destruct r as [t| | | | | |]; try discriminate. destruct (is_event t); try discriminate. injection E0 as <-.
        cbn [SourceKernel.run fold_left ProgSpec.meaning]. apply restrict_agree; auto. apply (test_null g e0 (PTr t) (Some t) K1 K2); auto. left. eauto.
      + destruct args as [|e0 [|]]; try discriminate; contradiction.
      + injection H as <- <-. cbn in Hc. injection Hc as <-. destruct args as [|? [|]]; try rewrite Ef; exact Ag.
    - injection H as <- <-. cbn in Hc. injection Hc as <-. exact Ag.
  Qed.
End Proofs.
