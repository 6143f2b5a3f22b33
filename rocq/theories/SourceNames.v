(** The names of a translated program: its constants, variables and arrays. *)
From Coq Require Import List Bool String Reals Lra Lia ZArith FunctionalExtensionality Classical.
From Verif Require Import Base Num Sets SetSpec Poly Trans TransSpec Dnf DnfSpec Logs Spe SpeSpec SpeOps Prog ProgSpec Source SourceSpec SourceVisit.
Import ListNotations.

Section Names.
  Context {N : numsys}.
  Notation expr := (expr N).
  Notation stmt := (stmt N).
  Notation item := (item N).
  Notation vstate := (vstate N).
  Context (isdist : string -> bool) (unparse : expr -> expr -> string).
  Notation visit := (visit isdist unparse).
  Notation grow := (grow (N:=N) isdist).
  Notation random := (random (N:=N) isdist).
  Notation visit_Assign := (visit_Assign isdist unparse).
  Notation declared st := (map fst (vs_variables st)).

  (** what a statement does to the declarations *)
  Definition keep (st st' : vstate) : Prop :=
    vs_context st' = vs_context st /\ (NoDup (declared st) -> NoDup (declared st')) /\ incl (vs_variables st) (vs_variables st') /\
    (global_only st = false -> vs_constants st' = vs_constants st /\ forall x n, In (x, Some n) (vs_variables st') -> In (x, Some n) (vs_variables st)).
  Lemma keep_refl : forall st, keep st st.
  Proof. intros st. unfold keep. repeat split; auto. apply incl_refl. Qed.
  Lemma keep_trans : forall a b c, keep a b -> keep b c -> keep a c.
  Proof.
    intros a b c (C1 & N1 & I1 & G1) (C2 & N2 & I2 & G2). unfold keep. split; [congruence|]. split; auto. split; [now apply incl_tran with (vs_variables b)|].
    intros G. assert (G' : global_only b = false) by (unfold global_only in *; now rewrite C1). destruct (G1 G) as (K1 & X1), (G2 G') as (K2 & X2). split; [congruence|auto].
  Qed.
  Lemma known_in : forall st x, known (N:=N) st x = true <-> In x (declared st).
  Proof.
    intros st x. unfold known. induction (declared st) as [|y l IH]; cbn; [split; [discriminate|tauto]|]. rewrite orb_true_iff, IH. destruct (String.eqb_spec x y) as [->|Ne]; intuition congruence.
  Qed.
  Lemma nodup_snoc : forall (st : vstate) x (o : option expr), known st x = false -> NoDup (declared st) -> NoDup (map fst (vs_variables st ++ [(x, o)])).
  Proof.
    intros st x o K D. rewrite map_app. cbn [map fst]. apply NoDup_rev in D. rewrite <- (rev_involutive (map fst (vs_variables st) ++ [x])). apply NoDup_rev. rewrite rev_app_distr. cbn. constructor; auto.
    rewrite <- in_rev, <- known_in, K. discriminate.
  Qed.
  Lemma keep_var : forall st x, known st x = false -> keep st (vs_with_variable x None st).
  Proof.
    intros st x K. unfold keep. cbn [vs_with_variable vs_context vs_variables vs_constants]. split; [reflexivity|]. split.
    - now apply nodup_snoc.
    - split; [apply incl_appl, incl_refl|]. intros _. split; [reflexivity|]. intros y n Hy. apply in_app_iff in Hy. destruct Hy as [|[[= _]|[]]]; auto.
  Qed.
  Lemma sample_keep : forall t v b st st' is, visit_Assign_sample_or_transform t v b st = Ok (st', is) -> keep st st' /\ vs_constants st' = vs_constants st /\ (forall x n, In (x, Some n) (vs_variables st') -> In (x, Some n) (vs_variables st)).
  Proof.
    intros t v b st st' is H. unfold visit_Assign_sample_or_transform in H. inv_bind H. injection H as <- <-.
    destruct t as [x| | | | | | | | | |[x| | | | | | | | | | | |] i| |]; try discriminate E.
    - inv_bind E. destruct (in_context CElif st); inv_bind E; injection E as <-; [split; [apply keep_refl|auto]|]. apply passert_Ok in E1. split; [apply keep_var; now apply negb_true_iff|]. split; [reflexivity|].
      intros y n Hy. cbn in Hy. apply in_app_iff in Hy. destruct Hy as [|[[= _]|[]]]; auto.
    - inv_bind E. injection E as <-. split; [apply keep_refl|auto].
  Qed.
  (** an assignment of a value that is not a conditional expression *)
  Inductive assigned (st st' : vstate) (t v : expr) : Prop :=
  | assigned_const : random (known st) v = false -> vs_variables st' = vs_variables st ->
      vs_constants st' = (if existsb (fun p => String.eqb (unparse t v) (unparse (fst p) (snd p))) (vs_constants st) then vs_constants st else vs_constants st ++ [(t, v)]) -> assigned st st' t v
  | assigned_array : forall x n kws, v = XCall "array" [n] kws -> t = XName x -> vs_constants st' = vs_constants st -> vs_variables st' = vs_variables st ++ [(x, Some n)] -> assigned st st' t v
  | assigned_random : random (known st) v = true -> is_array v = false -> vs_constants st' = vs_constants st -> (forall x n, In (x, Some n) (vs_variables st') -> In (x, Some n) (vs_variables st)) -> assigned st st' t v.
  Lemma assign_keep : forall t v st st' is, is_if v = false -> visit_Assign [t] v st = Ok (st', is) -> keep st st' /\ assigned st st' t v.
  Proof.
    intros t v st st' is I H. unfold Source.visit_Assign in H. set (st0 := vs_with_distributions _ st) in H.
    assert (K0 : known st0 = known st) by reflexivity. assert (V0 : vs_variables st0 = vs_variables st) by reflexivity. assert (C0 : vs_constants st0 = vs_constants st) by reflexivity. assert (G0 : keep st0 st' -> keep st st') by (intros X; exact X).
    assert (Gl : global_only st0 = global_only st) by reflexivity.
    clearbody st0. destruct (array_args v) as [args|] eqn:Ea.
    - unfold visit_Assign_array in H. inv_bind H. apply passert_Ok in E. destruct t as [x| | | | | | | | | | | |]; try discriminate. destruct args as [|n [|]]; try discriminate. inv_bind H. apply passert_Ok in E0. injection H as <- <-.
      split.
      + apply G0. unfold keep. cbn [vs_with_variable vs_context vs_variables vs_constants]. split; [reflexivity|]. split; [apply nodup_snoc; now apply negb_true_iff|]. split; [apply incl_appl, incl_refl|]. congruence.
      + destruct v as [| | | | | | | | | | |f l kws|]; try discriminate Ea. cbn in Ea. destruct (String.eqb_spec f "array") as [->|]; [|discriminate]. injection Ea as ->.
        apply (assigned_array _ _ _ _ x n kws); cbn; auto. now rewrite V0.
    - apply array_is in Ea. rewrite filter_nil in H. destruct (existsb isdist (names v)) eqn:Ed; cbn [negb] in H.
      + assert (H' : visit_Assign_sample_or_transform t v true st0 = Ok (st', is)).
        { destruct v as [| | | |op ? ?| | | | | | |f ? ?|]; try discriminate H; [now destruct op|now destruct (isdist f)]. }
        destruct (sample_keep _ _ _ _ _ _ H') as (A1 & A2 & A3). split; auto. apply assigned_random; auto; [rewrite random_plain, Ed, orb_true_r by auto; reflexivity|congruence|rewrite <- V0; auto].
      + destruct (existsb (known st0) (names v)) eqn:Ek; rewrite K0 in Ek.
        * destruct (sample_keep _ _ _ _ _ _ H) as (A1 & A2 & A3). split; auto. apply assigned_random; auto; [rewrite random_plain, Ek, !orb_true_r by auto; reflexivity|congruence|rewrite <- V0; auto].
        * unfold visit_Assign_py in H. inv_bind H. inv_bind H. apply passert_Ok in E. injection H as <- <-. split.
          -- apply G0. destruct (existsb _ (vs_constants st0)); [apply keep_refl|]. unfold keep. cbn. repeat split; auto; [apply incl_refl|congruence..].
          -- apply assigned_const; [now rewrite random_plain, Ea, Ed, Ek by auto|destruct (existsb _ (vs_constants st0)); exact V0|]. rewrite <- C0. destruct (existsb _ (vs_constants st0)); reflexivity.
  Qed.

  Definition keeps (v : stmt -> visitor (N:=N)) : Prop := forall s st st' is, v s st = Ok (st', is) -> keep st st'.
  Lemma each_keep : forall v l st st' is, keeps v -> each v l st = Ok (st', is) -> keep st st'.
  Proof.
    intros v l. induction l as [|s l IH]; intros st st' is V H; cbn [each] in H; [injection H as <- <-; apply keep_refl|].
    inv_bind H. destruct r as (st1, i). inv_bind H. destruct r as (st2, j). injection H as <- <-. eapply keep_trans; eauto.
  Qed.
  Lemma block_keep : forall v l st st' is, keeps v -> block v l st = Ok (st', is) -> keep st st'.
  Proof. intros v l st st' is V H. unfold block in H. inv_bind H. destruct r as (st1, i). injection H as <- <-. apply (each_keep v l (vs_with_first false st) _ i V E). Qed.
  Lemma not_global : forall (st : vstate) c, c <> CGlobal -> global_only (vs_with_context (vs_context st ++ [c]) st) = false.
  Proof. intros st c Hc. unfold global_only. cbn. destruct (vs_context st) as [|c0 [|c1 l]]; cbn; [destruct c; congruence|destruct c0; auto|destruct c0; auto]. Qed.
  (** in a context, even at the top *)
  Definition inner (st st' : vstate) : Prop := keep st st' /\ vs_constants st' = vs_constants st /\ forall x n, In (x, Some n) (vs_variables st') -> In (x, Some n) (vs_variables st).
  Lemma within_keep : forall c v st st' is, c <> CGlobal -> (forall st0 st1 js, v st0 = Ok (st1, js) -> keep st0 st1) -> within c v st = Ok (st', is) -> inner st st'.
  Proof.
    intros c v st st' is Hc V H. unfold within in H. inv_bind H. destruct r as (st1, i). injection H as <- <-. destruct (V _ _ _ E) as (C & D & I & G). specialize (G (not_global st c Hc)). destruct G as (G1 & G2).
    unfold inner, keep. cbn [vs_with_context vs_context vs_variables vs_constants] in *. repeat split; auto.
  Qed.
  Lemma branches_keep : forall v first l st st' is, keeps v -> branches v first l st = Ok (st', is) -> keep st st'.
  Proof.
    intros v first l. revert first. induction l as [|(c, b) l IH]; intros first st st' is V H; cbn [branches] in H; [injection H as <- <-; apply keep_refl|].
    inv_bind H. destruct r as (st1, i). inv_bind H. destruct r as (st2, j). injection H as <- <-. eapply keep_trans; [|eapply IH; eauto]. destruct first.
    - eapply block_keep; eauto.
    - apply (within_keep CElif (block v b) st st1 i); [discriminate| |auto]. intros. eapply block_keep; eauto.
  Qed.
  Lemma visit_keep : forall n, keeps (visit n) /\ forall s st st' is, visit n s st = Ok (st', is) -> (forall t v, s = SAssign [t] v -> is_if v = true) -> inner st st'.
  Proof.
    induction n as [|n (IH & IHi)]; [split; intros s st st' is H; discriminate|].
    assert (Inn : forall s st st' is, visit (Datatypes.S n) s st = Ok (st', is) -> (forall t v, s = SAssign [t] v -> is_if v = true) -> inner st st').
    { intros s st st' is H Hi. destruct s as [i|ts v|c b o|xs f args b|f args|].
      - cbn in H. injection H as <- <-. repeat split; auto. apply incl_refl.
      - destruct (assign_one isdist unparse (Datatypes.S n) ts v st _ H) as (t & ->). specialize (Hi t v eq_refl). cbn [Source.visit] in H.
        assert (H' : visit n (unroll_ifexp [t] v) st = Ok (st', is)) by (destruct v; try discriminate Hi; exact H). apply IHi in H'; auto. intros t0 v0 E. destruct v; try discriminate Hi. discriminate E.
      - cbn [Source.visit] in H. unfold visit_If in H. inv_bind H. inv_bind H. destruct r0 as (st1, i). injection H as <- <-. apply (within_keep CIf _ _ _ _ ltac:(discriminate)) in E0; auto. intros. eapply branches_keep; eauto.
      - cbn [Source.visit] in H. unfold visit_For in H. destruct (String.eqb f "range"); [|destruct (String.eqb f "switch"); [|discriminate]].
        + unfold visit_For_vanilla in H. destruct xs as [|x [|]]; try discriminate. inv_bind H. destruct r as (n0, n1). inv_bind H. destruct r as (st1, i). injection H as <- <-.
          apply (within_keep CFor _ _ _ _ ltac:(discriminate)) in E0; auto. intros. eapply block_keep; eauto.
        + unfold visit_For_switch in H. destruct args as [|a1 [|a2 [|]]]; try discriminate. inv_bind H. inv_bind H. destruct r0 as (st1, i). injection H as <- <-.
          apply (within_keep CSwitch _ _ _ _ ltac:(discriminate)) in E0; auto. intros. eapply block_keep; eauto.
      - cbn [Source.visit] in H. unfold visit_Call in H. destruct (String.eqb f "condition"); [|destruct (String.eqb f "constrain")]; try (destruct args as [|e0 [|]]; try discriminate); injection H as <- <-; (split; [apply keep_refl|auto]).
      - cbn in H. injection H as <- <-. split; [apply keep_refl|auto]. }
    split; [|exact Inn]. intros s st st' is H. destruct s as [i|ts v|c b o|xs f args b|f args|]; try (apply Inn in H; [apply H|discriminate]).
    destruct (assign_one isdist unparse (Datatypes.S n) ts v st _ H) as (t & ->). destruct (is_if v) eqn:I.
    - apply Inn in H; [apply H|]. intros t' v' E. injection E as _ <-. exact I.
    - assert (H' : visit_Assign [t] v st = Ok (st', is)) by (cbn [Source.visit] in H; destruct v; try discriminate I; exact H). now apply assign_keep in H'.
  Qed.

  (** ** The namespace *)
  Context (io : iterorder N) (po : polyoracle N) (fuel : nat) {S : logsys} {D : distsys N S}.
  Notation env := (env (N:=N)).
  Notation pyval := (pyval (N:=N)).
  Context (call : string -> list pyval -> list (string * pyval) -> res pyval).
  Notation peval := (peval io po fuel call).
  Notation named := (named peval isdist).
  Notation fixed := (fixed isdist).
  Notation run_constants := (run_constants io po fuel call).
  Definition text (p : expr * expr) : string := unparse (fst p) (snd p).

  Lemma run_app : forall l m g, run_constants (l ++ m) g = do g' <- run_constants l g; run_constants m g'.
  Proof. induction l as [|(t, v) l IH]; intros m g; [reflexivity|]. cbn [app Source.run_constants]. destruct t; auto. destruct (peval g v); cbn [bind]; auto. Qed.
  Lemma fixes_random : forall k t v, random k v = true -> fixes isdist k (SAssign [t] v) = None.
  Proof. intros k t v R. unfold fixes. now rewrite R. Qed.
  Lemma fixes_const : forall k t v, random k v = false -> fixes isdist k (SAssign [t] v) = Some (t, v).
  Proof. intros k t v R. unfold fixes. now rewrite R. Qed.
  Lemma const_grow : forall k t v, random k v = false -> grow k (SAssign [t] v) = k.
  Proof. intros k t v R. cbn [SourceSpec.grow]. rewrite R. destruct t; reflexivity. Qed.
  Lemma visit_const : forall n t v st st' is, visit n (SAssign [t] v) st = Ok (st', is) -> is_if v = true -> random (known st) v = false -> False.
  Proof.
    intros n t. induction n as [n IH] using lt_wf_ind. intros v st st' is H I R. destruct v as [| | | | | | | | | | | |c a b]; try discriminate I. destruct n as [|n]; [discriminate|]. cbn [Source.visit unroll_ifexp] in H.
    destruct n as [|n]; [discriminate|]. cbn [Source.visit] in H. unfold visit_If in H. inv_bind H. inv_bind H. destruct r0 as (st1, i). unfold within in E0. inv_bind E0. destruct r0 as (st2, j). cbn [unroll_if branches] in E1. inv_bind E1. destruct r0 as (st3, i3). clear E1. unfold block in E2. inv_bind E2. destruct r0 as (st4, i4). cbn [each] in E1. inv_bind E1. destruct r0 as (st5, i5). clear E1 E2.
    cbn [SourceSpec.random] in R. apply orb_false_iff in R. destruct R as (Ra & Rb). destruct (is_if a) eqn:Ia.
    - eapply (IH n); [lia|exact E3|exact Ia|exact Ra].
    - destruct n as [|n]; [discriminate|]. assert (H' : visit_Assign [t] a (vs_with_first false (vs_with_context (vs_context st ++ [CIf]) st)) = Ok (st5, i5)) by (cbn [Source.visit] in E3; destruct a; try discriminate Ia; exact E3).
      unfold Source.visit_Assign in H'. destruct (array_args a) eqn:Ea; [apply array_some in Ea; rewrite random_plain, Ea in Ra by auto; discriminate|]. rewrite random_plain in Ra by auto. apply orb_false_iff in Ra. destruct Ra as (_ & Ra). apply orb_false_iff in Ra. destruct Ra as (R1 & R2).
      rewrite filter_nil, R1 in H'. cbn [negb] in H'. match type of H' with (if ?b then _ else _) = _ => change b with (existsb (known st) (names a)) in H' end. rewrite R2 in H'. unfold visit_Assign_py in H'. inv_bind H'. apply passert_Ok in E1.
      pose proof (not_global st CIf ltac:(discriminate)) as G. unfold global_only in E1, G. cbn in E1, G. rewrite G in E1. discriminate.
  Qed.

  (** the constants that are declared *)
  Lemma each_named : forall n l st st' is, each (visit n) l st = Ok (st', is) -> vs_first st = false ->
    NoDup (map text (fixed (known st) l)) -> (forall t, In t (map text (fixed (known st) l)) -> ~ In t (map text (vs_constants st))) ->
    exists new, vs_constants st' = vs_constants st ++ new /\ forall g, run_constants new g = named (known st) l g.
  Proof.
    intros n l. induction l as [|s l IH]; intros st st' is H F Nd Dj; cbn [each] in H.
    - injection H as <- <-. exists []. rewrite app_nil_r. auto.
    - inv_bind H. destruct r as (st1, i). inv_bind H. destruct r as (st2, j). injection H as <- <-. destruct (visit_step isdist unparse n _ _ _ _ E F) as (F1 & _ & K1 & _).
      assert (Cs : (exists t v, s = SAssign [t] v /\ random (known st) v = false /\ is_if v = false) \/ fixes isdist (known st) s = None /\ (forall t v, s = SAssign [t] v -> is_if v = true \/ random (known st) v = true)).
      { destruct s as [ | [|t [|]] v | | | | ]; try (right; split; [reflexivity|intros; discriminate]). destruct (random (known st) v) eqn:R.
        - right. split; [now apply fixes_random|]. intros t' v' [= _ <-]. auto.
        - left. exists t, v. repeat split; auto. destruct (is_if v) eqn:I; auto. now elim (visit_const n t v st st1 i E I R). }
      destruct Cs as [(t & v & -> & R & I)|(Nf & Hs)].
      + destruct n as [|n]; [discriminate|]. assert (E' : visit_Assign [t] v st = Ok (st1, i)) by (cbn [Source.visit] in E; destruct v; try discriminate I; exact E). destruct (assign_keep _ _ _ _ _ I E') as (_ & A).
        rewrite const_grow in K1 by auto. cbn [SourceSpec.fixed] in Nd, Dj. rewrite fixes_const in Nd, Dj by auto. cbn [map] in Nd, Dj. inversion Nd as [|? ? Nt Nd']; subst.
        assert (C1 : vs_constants st1 = vs_constants st ++ [(t, v)]).
        { destruct A as [_ _ C1|x m kws -> -> _ _|R' _ _ _]; [|cbn in R; discriminate R|congruence]. rewrite C1.
          replace (existsb _ (vs_constants st)) with false; [reflexivity|]. symmetry. apply not_true_is_false. intros Ex. apply existsb_exists in Ex. destruct Ex as (p & Hp & Eq). apply String.eqb_eq in Eq.
          apply (Dj (text (t, v))); [now left|]. unfold text at 1. cbn [fst snd]. rewrite Eq. change (unparse (fst p) (snd p)) with (text p). now apply in_map. }
        destruct (IH _ _ _ E0 F1) as (new & Cn & Rn); [now rewrite K1| |].
        { intros t' Ht. rewrite K1 in Ht. rewrite C1, map_app, in_app_iff. intros [K|[K|[]]]; [apply (Dj t'); [now right|auto]|]. cbn in K. subst. contradiction. }
        exists ((t, v) :: new). split; [rewrite Cn, C1, <- app_assoc; reflexivity|]. intros g. cbn [SourceSpec.named]. rewrite fixes_const by auto. cbn [Source.run_constants]. destruct t; auto. destruct (peval g v); cbn [bind]; auto. rewrite Rn, K1. reflexivity.
      + assert (C1 : vs_constants st1 = vs_constants st).
        { destruct (classic (forall t v, s = SAssign [t] v -> is_if v = true)) as [Y|Y]; [now destruct (proj2 (visit_keep n) _ _ _ _ E Y) as (_ & K & _)|].
          apply not_all_ex_not in Y. destruct Y as (t & Y). apply not_all_ex_not in Y. destruct Y as (v & Y). apply imply_to_and in Y. destruct Y as (-> & Y). apply not_true_is_false in Y. destruct (Hs t v eq_refl) as [?|R]; [congruence|].
          destruct n as [|n]; [discriminate|]. assert (E' : visit_Assign [t] v st = Ok (st1, i)) by (cbn [Source.visit] in E; destruct v; try discriminate Y; exact E). destruct (assign_keep _ _ _ _ _ Y E') as (_ & A). destruct A; congruence. }
        cbn [SourceSpec.fixed] in Nd, Dj. rewrite Nf in Nd, Dj. rewrite <- K1 in Nd, Dj. destruct (IH _ _ _ E0 F1 Nd) as (new & Cn & Rn); [now rewrite C1|].
        exists new. split; [congruence|]. intros g. cbn [SourceSpec.named]. rewrite Nf, <- K1. apply Rn.
  Qed.

  (** the arrays that are declared *)
  Definition array_decl (x : string) (m : expr) (s : stmt) : Prop := exists kws, s = SAssign [XName x] (XCall "array" [m] kws).
  Lemma each_arrays : forall n l st st' is, each (visit n) l st = Ok (st', is) -> forall x m, (In (x, Some m) (vs_variables st') <-> In (x, Some m) (vs_variables st) \/ exists s, In s l /\ array_decl x m s).
  Proof.
    intros n l. induction l as [|s l IH]; intros st st' is H x m; cbn [each] in H.
    - injection H as <- <-. split; [auto|intros [?|(? & [] & _)]; auto].
    - inv_bind H. destruct r as (st1, i). inv_bind H. destruct r as (st2, j). injection H as <- <-. rewrite (IH _ _ _ E0 x m).
      assert (K : In (x, Some m) (vs_variables st1) <-> In (x, Some m) (vs_variables st) \/ array_decl x m s).
      { pose proof (proj1 (visit_keep n) _ _ _ _ E) as (_ & _ & Inc & _). destruct (classic (forall t v, s = SAssign [t] v -> is_if v = true)) as [Y|Y].
        - destruct (proj2 (visit_keep n) _ _ _ _ E Y) as (_ & _ & K). split; auto. intros [?|(kws & ->)]; [now apply Inc|]. specialize (Y _ _ eq_refl). discriminate Y.
        - apply not_all_ex_not in Y. destruct Y as (t & Y). apply not_all_ex_not in Y. destruct Y as (v & Y). apply imply_to_and in Y. destruct Y as (-> & Y). apply not_true_is_false in Y.
          destruct n as [|n]; [discriminate|]. assert (E' : visit_Assign [t] v st = Ok (st1, i)) by (cbn [Source.visit] in E; destruct v; try discriminate Y; exact E). destruct (assign_keep _ _ _ _ _ Y E') as (_ & A). destruct A as [R V _|y k kws -> -> _ V|R Na _ V].
          + rewrite V. split; auto. intros [?|(kws & [= -> ->])]; auto. cbn in R. discriminate R.
          + rewrite V, in_app_iff. split; intros [?|K]; auto; right; [destruct K as [[= -> ->]|[]]; exists kws; reflexivity|]. destruct K as (k' & [= -> -> _]). now left.
          + split; auto. intros [?|(kws & [= -> ->])]; [now apply Inc|]. discriminate Na. }
      rewrite K. split; intros [X|X]; auto; [destruct X as [?|?]; auto; right; exists s; split; [now left|auto]|destruct X as (s0 & ? & ?); right; exists s0; split; [now right|auto]|].
      destruct X as (s0 & [<-|?] & ?); [left; auto|right; eauto].
  Qed.
  Lemma lookup_app : forall (g h : env) x, Source.lookup (g ++ h) x = match find (fun p => String.eqb x (fst p)) g with Some p => Ok (snd p) | None => Source.lookup h x end.
  Proof. intros g h x. unfold Source.lookup. induction g as [|p g IH]; cbn; [reflexivity|]. destruct (String.eqb x (fst p)); auto. Qed.
  Lemma lookup_here : forall (g : env) x v, Source.lookup ((x, v) :: g) x = Ok v.
  Proof. intros. unfold Source.lookup. cbn. now rewrite String.eqb_refl. Qed.
  Lemma lookup_there : forall (g : env) x y v, x <> y -> Source.lookup ((y, v) :: g) x = Source.lookup g x.
  Proof. intros g x y v H. unfold Source.lookup. cbn. destruct (String.eqb_spec x y); congruence. Qed.
  Lemma find_ids : forall (l : list (string * option expr)) x,
    find (fun p => String.eqb x (fst p)) (rev (flat_map (fun p => match snd p with None => [(fst p, PTr (TId (fst p)))] | Some _ => [] end) l)) =
    if existsb (fun p => String.eqb x (fst p) && match snd p with None => true | Some _ => false end) l then Some (x, PTr (N:=N) (TId x)) else None.
  Proof.
    intros l x. assert (K : forall vs : env, (forall p, In p vs -> snd p = PTr (TId (fst p))) -> find (fun p => String.eqb x (fst p)) (rev vs) = if existsb (fun p => String.eqb x (fst p)) vs then Some (x, PTr (TId x)) else None).
    { intros vs H. destruct (existsb _ vs) eqn:Ex.
      - apply existsb_exists in Ex. destruct Ex as (p & Hp & Ep). destruct (find _ (rev vs)) as [q|] eqn:Ef.
        + apply find_some in Ef. destruct Ef as (Hq & Eq). apply in_rev in Hq. apply String.eqb_eq in Eq. specialize (H q Hq). destruct q as (y, u). cbn in *. now subst.
        + rewrite (find_none _ _ Ef p) in Ep; [discriminate|]. now rewrite <- in_rev.
      - destruct (find _ (rev vs)) as [q|] eqn:Ef; auto. apply find_some in Ef. destruct Ef as (Hq & Eq). apply in_rev in Hq. assert (true = false); [|discriminate]. rewrite <- Ex. symmetry. apply existsb_exists. eauto. }
    rewrite K.
    - replace (existsb (fun p : string * pyval => String.eqb x (fst p)) _) with (existsb (fun p => String.eqb x (fst p) && match snd p with None => true | Some _ => false end) l); [reflexivity|].
      clear K. induction l as [|(y, o) l IH]; [reflexivity|]. cbn [existsb flat_map fst snd]. rewrite existsb_app, IH. destruct o; cbn; rewrite ?andb_false_r, ?andb_true_r, ?orb_false_r; reflexivity.
    - intros p Hp. apply in_flat_map in Hp. destruct Hp as ((y, o) & _ & Hp). destruct o; cbn in Hp; [contradiction|]. destruct Hp as [<-|[]]. reflexivity.
  Qed.
  Notation add_array := (fun (g : env) (p : string * option expr) => match snd p with
                      | None => Ok g
                      | Some n => do v <- peval g n; do z <- int_or TypeError v; Ok ((fst p, IdArray (fst p) z) :: g)
                      end).
  Lemma arrays_env : forall l g0 g, foldM add_array l g0 = Ok g -> NoDup (map fst l) ->
    (forall x, (forall m, ~ In (x, Some m) l) -> Source.lookup g x = Source.lookup g0 x) /\
    forall x m, In (x, Some m) l -> exists g1 v z, peval g1 m = Ok v /\ int_or TypeError v = Ok z /\ Source.lookup g x = Ok (IdArray x z) /\ (forall y, (forall k, ~ In (y, Some k) l) -> Source.lookup g1 y = Source.lookup g0 y).
  Proof.
    induction l as [|(x, o) l IH]; intros g0 g H Nd; cbn [foldM] in H.
    - injection H as <-. split; auto. intros x m [].
    - cbn [map fst] in Nd. inversion Nd as [|? ? Nx Nd']; subst. inv_bind H. rename r into g1. destruct o as [m|]; cbn [fst snd] in E.
      + inv_bind E. rename r into v. inv_bind E. rename r into z. injection E as <-. destruct (IH _ _ H Nd') as (A & B). split.
        * intros y Hy. rewrite A by (intros k K; apply (Hy k); now right). apply lookup_there. intros ->. apply (Hy m). now left.
        * intros y k [[= <- <-]|Hk].
          -- exists g0, v, z. repeat split; auto. rewrite A, lookup_here; auto. intros k K. apply Nx. apply (in_map fst) in K. exact K.
          -- destruct (B y k Hk) as (g1 & v1 & z1 & B1 & B2 & B3 & B4). exists g1, v1, z1. repeat split; auto. intros y' Hy. rewrite B4 by (intros k' K; apply (Hy k'); now right). apply lookup_there. intros ->. apply (Hy m). now left.
      + injection E as <-. destruct (IH _ _ H Nd') as (A & B). split.
        * intros y Hy. apply A. intros k K. apply (Hy k). now right.
        * intros y k [[=]|Hk]. destruct (B y k Hk) as (g1 & v1 & z1 & B1 & B2 & B3 & B4). exists g1, v1, z1. repeat split; auto. intros y' Hy. apply B4. intros k' K. apply (Hy k'). now right.
  Qed.

  (** the namespace in which a translated program runs *)
  Theorem names_ok : forall n p st is g, translate isdist unparse n p = Ok (st, is) -> module_env io po fuel call st = Ok g -> NoDup (map text (fixed (fun _ => false) p)) ->
    let k := fold_left grow p (fun _ => false) in
    exists g0, named (fun _ => false) p [] = Ok g0 /\
      (forall x, k x = false -> Source.lookup g x = Source.lookup g0 x) /\
      (forall x, k x = true -> (forall m s, In s p -> ~ array_decl x m s) -> Source.lookup g x = Ok (PTr (TId x))) /\
      (forall x m s, In s p -> array_decl x m s -> exists g1 v z, peval g1 m = Ok v /\ int_or TypeError v = Ok z /\ Source.lookup g x = Ok (IdArray x z) /\ forall y, k y = false -> Source.lookup g1 y = Source.lookup g0 y).
  Proof.
    intros n p st is g H Hg Nd k. unfold Source.translate, block in H. inv_bind H. destruct r as (st1, i). injection H as <- <-. set (st0 := vs_with_first false vs_init) in E.
    assert (K0 : known st0 = fun _ => false) by reflexivity. assert (F0 : vs_first st0 = false) by reflexivity.
    destruct (each_step isdist _ _ _ _ _ (visit_step isdist unparse n) E F0) as (_ & _ & K1 & _). rewrite K0 in K1. fold k in K1.
    destruct (each_named n p st0 st1 i E F0) as (new & Cn & Rn); [now rewrite K0|intros t _ []|]. cbn in Cn. pose proof (each_arrays n p st0 st1 i E) as Ar. destruct (each_keep _ _ _ _ _ (proj1 (visit_keep n)) E) as (_ & Nv & _). specialize (Nv (NoDup_nil _)).
    unfold module_env in Hg. inv_bind Hg. rename r into g0. rewrite Cn, Rn, K0 in E0. exists g0. split; auto. apply arrays_env in Hg; auto. destruct Hg as (A & B).
    assert (Base : forall x, Source.lookup (rev (flat_map (fun p => match snd p with None => [(fst p, PTr (TId (fst p)))] | Some _ => [] end) (vs_variables st1)) ++ g0) x =
      if existsb (fun p => String.eqb x (fst p) && match snd p with None => true | Some _ => false end) (vs_variables st1) then Ok (PTr (TId x)) else Source.lookup g0 x).
    { intros x. rewrite lookup_app, find_ids. destruct (existsb _ _); reflexivity. }
    assert (Kn : forall x, k x = true <-> In x (declared st1)) by (intros x; rewrite <- K1; apply known_in).
    assert (Not : forall x, k x = false -> existsb (fun p => String.eqb x (fst p) && match snd p with None => true | Some _ => false end) (vs_variables st1) = false).
    { intros x Kx. apply not_true_is_false. intros Ex. apply existsb_exists in Ex. destruct Ex as ((y, o) & Hy & Ey). apply andb_true_iff in Ey. destruct Ey as (Ey & _). apply String.eqb_eq in Ey. cbn in Ey. subst y.
      assert (k x = true); [|congruence]. apply Kn. apply (in_map fst) in Hy. exact Hy. }
    assert (Na : forall x, k x = false -> forall m, ~ In (x, Some m) (vs_variables st1)) by (intros x Kx m K; assert (k x = true); [apply Kn; apply (in_map fst) in K; exact K|congruence]).
    split; [|split].
    - intros x Kx. rewrite A by now apply Na. rewrite Base, Not by auto. reflexivity.
    - intros x Kx No. rewrite A.
      + rewrite Base. replace (existsb _ _) with true; [reflexivity|]. symmetry. apply Kn in Kx. apply in_map_iff in Kx. destruct Kx as ((y, o) & Ey & Hy). cbn in Ey. subst y. apply existsb_exists. exists (x, o). split; auto. cbn. rewrite String.eqb_refl.
        destruct o as [m|]; auto. apply Ar in Hy. destruct Hy as [[]|(s & Hs & Ds)]. elim (No m s Hs Ds).
      + intros m K. apply Ar in K. destruct K as [[]|(s & Hs & Ds)]. elim (No m s Hs Ds).
    - intros x m s Hs Ds. destruct (B x m) as (g1 & v & z & B1 & B2 & B3 & B4); [apply Ar; eauto|]. exists g1, v, z. repeat split; auto. intros y Ky. rewrite B4 by now apply Na. rewrite Base, Not by auto. reflexivity.
  Qed.
End Names.
