(** Expressions that compare equal have the same law. *)
From Coq Require Import List Bool String Reals Lra Lia ZArith QArith Qreals FunctionalExtensionality Permutation.
From Verif Require Import Base Num Sets SetSpec SetIv SetProofs SetOr SetOps SetAlg SetBuilt
  Poly Trans TransSpec TransFacts PolyProofs InvProofs InvMain EvProofs ArithProofs
  Dnf DnfSpec DnfProofs DnfUnion Logs Spe SpeSpec SpeFacts SpeRect LeafProofs LeafEvents LeafCond SpeCons LeafGiven MemoProofs NormSorts LogprobProofs.
Import ListNotations.
Local Open Scope R_scope.

Section Every.
  Context {N : numsys} {S : logsys} {D : distsys N S}.
  (** a property of the expression and all its parts *)
  Fixpoint every (P : spe D -> Prop) (s : spe D) : Prop :=
    P s /\
    match s with
    | SumSPE l => All (fun c => every P (fst c)) l
    | ProductSPE l => All (every P) l
    | _ => True
    end.
  Lemma every_here : forall (P : spe D -> Prop) s, every P s -> P s.
  Proof. intros P [] H; apply H. Qed.
  Lemma every_leaf : forall (P : spe D -> Prop) s, is_leaf s = true -> P s -> every P s.
  Proof. intros P [] Hl H; try discriminate; split; auto; exact Logic.I. Qed.
  Lemma every_sum : forall P l c, every P (SumSPE l) -> In c l -> every P (fst c).
  Proof. intros P l c (_ & H) Hc. apply (All_In _ (fun c => every P (fst c)) l); auto. Qed.
  Lemma every_prod : forall P l c, every P (ProductSPE l) -> In c l -> every P c.
  Proof. intros P l c (_ & H) Hc. apply (All_In _ (every P) l); auto. Qed.
  Lemma all_forall : forall A (P : A -> Prop) l, (forall a, In a l -> P a) -> All P l.
  Proof. induction l as [|a l IH]; intros H; simpl; auto. split; [apply H; now left|]. apply IH. intros; apply H; now right. Qed.
  Lemma every_impl : forall (P Q : spe D -> Prop) s, (forall s, P s -> Q s) -> every P s -> every Q s.
  Proof.
    intros P Q s I. induction s using spe_ind'; intros E; pose proof (I _ (every_here P _ E)) as Qs; try (split; [exact Qs|exact Logic.I]).
    - split; auto. apply all_forall. intros c Hc. apply H; auto. eapply every_sum; eauto.
    - split; auto. apply all_forall. intros c Hc. apply H; auto. eapply every_prod; eauto.
  Qed.
End Every.

Section Eq.
  Context {N : numsys} {S : logsys} {D : distsys N S}.
  Context (dlaw : dist D -> (fval -> R) -> R).
  Notation spe := (spe D).
  Notation den := (den dlaw).
  Notation wf_spe := (wf_spe dlaw).

  (** equal distributions have equal laws *)
  Definition eq_dist : Prop := forall d d' : dist D, deqb d d' = true -> forall f, dlaw d f = dlaw d' f.
  Context (Ed : eq_dist).
  (** AtomicLeaf.__eq__ ignores env: the atoms of one variable have one environment *)
  Context (envof : string -> tenv (N:=N)).
  Definition aenv (s : spe) : Prop := match s with AtomicLeaf x _ env => env = envof x | _ => True end.

  Lemma derive_eq : forall (env env' : tenv (N:=N)) w, env_eqb env env' = true -> derive env w = derive env' w /\ map fst env = map fst env'.
  Proof.
    unfold env_eqb. induction env as [|(y, t) env IH]; intros [|(y', t') env'] w H; try discriminate; [auto|]. cbn [list_eqb fst snd] in H.
    apply andb_true_iff in H. destruct H as (H & H2). apply andb_true_iff in H. destruct H as (H0 & H1). apply String.eqb_eq in H0. subst y'. cbn [derive map fst].
    rewrite (teqb_teval _ _ w H1). destruct (IH env' (upd w y (value_or (teval t' w))) H2) as (A & B). split; [exact A|congruence].
  Qed.
  Lemma real_law_eq : forall d d' (i i' : interval N) cond f, deqb d d' = true -> iv_eqb i i' = true -> real_law dlaw d i cond f = real_law dlaw d' i' cond f.
  Proof.
    intros d d' i i' cond f H1 H2. assert (E : ind (in_iv i) = ind (in_iv i')).
    { apply ind_iff. intros [x|s]; unfold in_iv; [|tauto]. now apply iv_eqb_mem. }
    unfold real_law. rewrite E. destruct cond; now rewrite !(Ed d d').
  Qed.
  Lemma lookup_some : forall A x (l : list (string * A)) q, lookup x l = Some q -> In (x, q) l.
  Proof.
    induction l as [|(y, z) l IH]; intros q H; simpl in H; [discriminate|]. destruct (String.eqb_spec x y) as [->|].
    - injection H as ->. now left.
    - right. auto.
  Qed.
  Lemma lookup_nodup : forall A x (l : list (string * A)) q, NoDup (map fst l) -> In (x, q) l -> lookup x l = Some q.
  Proof.
    induction l as [|(y, z) l IH]; intros q Nd H; [destruct H|]. cbn [map fst] in Nd. inversion Nd as [|? ? Ny Nd']; subst. simpl. destruct H as [H|H].
    - injection H as -> ->. now rewrite String.eqb_refl.
    - destruct (String.eqb_spec x y) as [->|]; auto. exfalso. apply Ny. now apply (in_map fst) in H.
  Qed.
  Definition weight_at (ws : list (string * Q)) (x : string) : R := match lookup x ws with Some q => Q2R q | None => 0 end.
  Lemma nom_law_keys : forall ws f, NoDup (map fst ws) -> nom_law ws f = sumR (map (fun x => f (FStr x) * weight_at ws x) (map fst ws)).
  Proof.
    intros ws f Nd. unfold nom_law. rewrite map_map. apply sumR_ext. intros (x, q) H. cbn [fst snd]. unfold weight_at. now rewrite (lookup_nodup _ x ws q Nd H).
  Qed.
  Lemma Qdict_eq : forall a b : list (string * Q), NoDup (map fst a) -> NoDup (map fst b) -> Qdict_eqb a b = true -> forall f, nom_law a f = nom_law b f.
  Proof.
    intros a b Na Nb H f. unfold Qdict_eqb in H. apply andb_true_iff in H. destruct H as (H1 & H2). apply Nat.eqb_eq in H1. rewrite forallb_forall in H2.
    assert (K : forall x, In x (map fst a) -> In x (map fst b) /\ weight_at a x = weight_at b x).
    { intros x Hx. apply in_map_iff in Hx. destruct Hx as ((y, q) & <- & Hq). cbn [fst]. specialize (H2 _ Hq). cbn [fst snd] in H2. destruct (lookup y b) as [q'|] eqn:E; [|discriminate].
      split; [apply lookup_some in E; now apply (in_map fst) in E|]. unfold weight_at. rewrite E, (lookup_nodup _ y a q Na Hq). apply Qeq_bool_eq in H2. now apply Qreals.Qeq_eqR. }
    rewrite !nom_law_keys by auto. rewrite (sumR_ext _ _ (fun x => f (FStr x) * weight_at b x)) by (intros x Hx; now rewrite (proj2 (K x Hx))).
    apply sumR_perm, Permutation_map. apply NoDup_Permutation_bis; auto; [rewrite !map_length; lia|]. intros x Hx. apply (K x Hx).
  Qed.
  Lemma Qdict_keys : forall a b : list (string * Q), NoDup (map fst a) -> Qdict_eqb a b = true -> incl (map fst a) (map fst b).
  Proof.
    intros a b Na H x Hx. unfold Qdict_eqb in H. apply andb_true_iff in H. destruct H as (H1 & H2). rewrite forallb_forall in H2.
    apply in_map_iff in Hx. destruct Hx as ((y, q) & <- & Hq). specialize (H2 _ Hq). cbn [fst snd] in *. destruct (lookup y b) as [q'|] eqn:E; [|discriminate].
    apply lookup_some in E. now apply (in_map fst) in E.
  Qed.

  Theorem speqb_ok : forall s t, wf_spe s -> wf_spe t -> every aenv s -> every aenv t -> speqb s t = true ->
    (forall f w, den s f w = den t f w) /\ forall x, vars s x <-> vars t x.
  Proof.
    induction s using spe_ind'; intros t Ws Wt As At H'; destruct t as [disc' x' d' supp' cond' env'|x' a' env'|x' ws'|m|m]; try discriminate.
    - cbn [speqb] in H'. rewrite !andb_true_iff in H'. destruct H' as (((((H1 & H2) & H3) & H4) & H5) & H6). apply Bool.eqb_prop in H1, H5. apply String.eqb_eq in H2. subst.
      split.
      + intros f w. cbn [SpeSpec.den]. replace (fun v => f (place x' env w v)) with (fun v => f (place x' env' w v)); [now apply real_law_eq|].
        extensionality v. unfold place. now rewrite (proj1 (derive_eq env env' _ H6)).
      + intros y. cbn [vars]. now rewrite (proj2 (derive_eq env env' w0 H6)).
    - cbn [speqb] in H'. apply andb_true_iff in H'. destruct H' as (H1 & H2). apply String.eqb_eq in H1. subst x'. apply every_here in As, At. cbn in As, At. subst. apply neqb_ok in H2.
      split; [|tauto]. intros f w. cbn [SpeSpec.den]. now rewrite H2.
    - cbn [speqb] in H'. apply andb_true_iff in H'. destruct H' as (H1 & H2). apply String.eqb_eq in H1. subst x'. split; [|tauto].
      intros f w. cbn [SpeSpec.den]. apply Qdict_eq; auto; [apply Ws|apply Wt].
    - assert (K : Forall2 (fun a b => (forall f w, den (fst a) f w = den (fst b) f w) /\ (forall x, vars (fst a) x <-> vars (fst b) x) /\ toP (snd a) = toP (snd b)) l m).
      { pose proof (sum_wf dlaw l Ws) as Wl. pose proof (sum_wf dlaw m Wt) as Wm.
        assert (Al : forall c, In c l -> every aenv (fst c)) by (intros c; now apply every_sum).
        assert (Am : forall c, In c m -> every aenv (fst c)) by (intros c; now apply every_sum).
        clear Ws Wt As At. cbn [speqb] in H'. revert m H' Wm Am. induction l as [|a l IH]; intros [|b m] H' Wm Am; try discriminate; constructor.
        - apply andb_true_iff in H'. destruct H' as (H' & _). apply andb_true_iff in H'. destruct H' as (H1 & H2). apply leqb_ok in H2.
          destruct (H a (or_introl eq_refl) (fst b) (Wl a (or_introl eq_refl)) (Wm b (or_introl eq_refl)) (Al a (or_introl eq_refl)) (Am b (or_introl eq_refl)) H1) as (E1 & E2). auto.
        - apply andb_true_iff in H'. destruct H' as (_ & H'). apply IH; auto; simpl in *; auto. }
      split.
      + intros f w. cbn [SpeSpec.den]. clear -K. induction K as [|a b l m (E1 & _ & E2) K IH]; auto. cbn [map sumR fold_right]. unfold sumR in IH. rewrite IH, E1, E2. reflexivity.
      + intros x. cbn [vars]. destruct K as [|a b l m (_ & E & _) K]; [tauto|]. apply E.
    - assert (K : Forall2 (fun a b => (forall f w, den a f w = den b f w) /\ (forall x, vars a x <-> vars b x)) l m).
      { pose proof (prod_wf dlaw l Ws) as Wl. pose proof (prod_wf dlaw m Wt) as Wm.
        assert (Al : forall c, In c l -> every aenv c) by (intros c; now apply every_prod).
        assert (Am : forall c, In c m -> every aenv c) by (intros c; now apply every_prod).
        clear Ws Wt As At. cbn [speqb] in H'. revert m H' Wm Am. induction l as [|a l IH]; intros [|b m] H' Wm Am; try discriminate; constructor.
        - apply andb_true_iff in H'. destruct H' as (H1 & _).
          exact (H a (or_introl eq_refl) b (Wl a (or_introl eq_refl)) (Wm b (or_introl eq_refl)) (Al a (or_introl eq_refl)) (Am b (or_introl eq_refl)) H1).
        - apply andb_true_iff in H'. destruct H' as (_ & H'). apply IH; auto; simpl in *; auto. }
      split.
      + intros f. cbn [SpeSpec.den]. clear -K. induction K as [|a b l m (E1 & _) K IH]; auto. intros w. cbn [SpeSpec.den_prod].
        replace (den_prod den l f) with (den_prod den m f) by (extensionality a'; symmetry; apply IH). apply E1.
      + intros x. cbn [vars]. clear -K. induction K as [|a b l m (_ & E) K IH]; simpl; [tauto|]. rewrite IH, E. tauto.
  Qed.
End Eq.
