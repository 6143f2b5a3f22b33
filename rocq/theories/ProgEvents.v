(** The events of the branches of IfElse and Switch. *)
From Coq Require Import List Bool String Reals Lra Lia ZArith QArith Qreals FunctionalExtensionality Permutation Classical.
From Verif Require Import Base Num Sets SetSpec SetIv SetProofs SetOr SetOps SetAlg SetBuilt
  Poly Trans TransSpec TransFacts PolyProofs InvProofs InvMain EvProofs ArithProofs
  Dnf DnfSpec DnfProofs DnfUnion Logs Spe SpeSpec SpeFacts SpeRect LeafProofs LeafEvents LeafCond SpeCons LeafGiven MemoProofs NormSorts LogprobProofs LogprobTop SpeEq SimplifyProofs CondTypes CondProofs CondTop PropDnf PropSpe SpeOps Prog ProgSpec.
Import ListNotations.
Local Open Scope R_scope.

Section Events.
  Context {N : numsys} (io : iterorder N) (po : polyoracle N) (fuel : nat) (nominal : string -> bool).
  Notation tr := (tr N).
  Notation pset := (pset N).

  (** ** Equal transforms *)
  Lemma sunions_map : forall A (f g : A -> list string) l, (forall a, In a l -> f a = g a) -> sunions (map f l) = sunions (map g l).
  Proof. intros A f g l H. f_equal. apply map_ext_in. exact H. Qed.
  Lemma teqb_symbols : forall s t : tr, teqb s t = true -> symbols s = symbols t.
  Proof.
    induction s using tr_ind'; intros u E; destruct u; simpl in E; try discriminate; cbn [symbols]; repeat (apply andb_true_iff in E; destruct E as (E & ?)); auto.
    - apply String.eqb_eq in E. now subst.
    - f_equal. revert l0 E. induction H as [|p l (Hp1 & Hp2) H IH]; intros [|q m] E; try discriminate; auto.
      + destruct p. discriminate.
      + destruct p as (a, e), q as (b, f). apply andb_true_iff in E. destruct E as (E1 & E2). apply andb_true_iff in E1. destruct E1 as (E0 & E1). simpl in *. f_equal; auto.
    - f_equal. revert l0 E. induction H as [|p l Hp H IH]; intros [|q m] E; try discriminate; auto. apply andb_true_iff in E. destruct E as (E1 & E2). simpl. f_equal; auto.
    - f_equal. revert l0 E. induction H as [|p l Hp H IH]; intros [|q m] E; try discriminate; auto. apply andb_true_iff in E. destruct E as (E1 & E2). simpl. f_equal; auto.
  Qed.
  Lemma peqb_hasinf : forall v w : pset, peqb v w = true -> hasinf v = hasinf w.
  Proof.
    assert (K : forall v w : pset, peqb v w = true -> hasinf v = true -> hasinf w = true).
    { intros v w E H. pose proof (peqb_mem _ _ E) as M. pose proof H as H0. apply hasinf_mem in H. destruct H as (x & Hx & I). apply M in Hx.
      destruct v as [|[|vs|]|]; try discriminate. destruct w as [|[|ws|]|]; simpl in E; try discriminate. destruct Hx as (y & Hy & Ey). simpl. apply existsb_exists. exists y. split; auto. destruct y; auto. simpl in Ey. destruct I; congruence. }
    intros v w E. assert (E' : peqb w v = true).
    { clear -E. destruct v as [|[vs f|vs|i]|u], w as [|[ws g|ws|j]|u']; simpl in *; try discriminate; auto; unfold set_eqb, iv_eqb in *; repeat rewrite andb_true_iff in *; try tauto.
      - destruct E as (E1 & E2). split; [|tauto]. destruct (truthy f), (truthy g); auto.
      - destruct E as (((E1 & E2) & E3) & E4). apply eeqb_eR in E1, E2. rewrite !eeqb_eR. destruct (iv_lo i), (iv_lo j), (iv_ro i), (iv_ro j); auto. }
    destruct (hasinf v) eqn:A, (hasinf w) eqn:B; auto; [rewrite (K v w E A) in B|rewrite (K w v E' B) in A]; discriminate.
  Qed.
  Lemma peqb_complemented : forall v w : pset, peqb v w = true -> complemented v = complemented w.
  Proof.
    intros [|[vs f|vs|i]|u] [|[ws g|ws|j]|u']; simpl; try discriminate; auto. intros E. apply andb_true_iff in E. destruct E as (E & _). now apply Bool.eqb_prop.
  Qed.
  Lemma teqb_numv : forall s t : tr, teqb s t = true -> numv s -> numv t.
  Proof.
    induction s using tr_ind'; intros u E; destruct u; simpl in E; try discriminate; cbn [numv]; auto.
    revert l0 E. induction H as [|p l (Hp1 & Hp2) H IH]; intros [|q m] E; try discriminate; auto.
    + destruct p. discriminate.
    + destruct p as (a, e), q as (b, f). apply andb_true_iff in E. destruct E as (E1 & E2). apply andb_true_iff in E1. destruct E1 as (E0 & E1). simpl in *. intros (K1 & K2). split; auto.
  Qed.
  Lemma teqb_holds' : forall (s t : tr) w, teqb s t = true -> holds s w -> holds t w.
  Proof. intros s t w E H. unfold holds in *. now rewrite <- (teqb_teval s t w E). Qed.
  Lemma teqb_regular : forall (s t : tr) g w, teqb s t = true -> regular g s w -> regular g t w.
  Proof.
    induction s using tr_ind'; intros u g w E; destruct u; cbn [teqb] in E; try discriminate; cbn [regular].
    - auto.
    - apply andb_true_iff in E. destruct E as (E & _). auto.
    - apply andb_true_iff in E. destruct E as (E & _). auto.
    - apply andb_true_iff in E. destruct E as (E & _). intros (R1 & R2). split; auto. rewrite <- (teqb_teval s u w E). auto.
    - auto.
    - auto.
    - apply andb_true_iff in E. destruct E as (E & _). auto.
    - assert (K : Forall2 (fun p q : tr * tr => (forall g, regular g (fst p) w -> regular g (fst q) w) /\ (forall g, regular g (snd p) w -> regular g (snd q) w) /\ (holds (snd q) w -> holds (snd p) w)) l l0).
      { revert l0 E. induction H as [|p l (Hp1 & Hp2) H IH]; intros [|q m] E; try discriminate; auto.
        + destruct p. discriminate.
        + destruct p as (a, e), q as (b, f). apply andb_true_iff in E. destruct E as (E1 & E2). apply andb_true_iff in E1. destruct E1 as (E0 & E1). simpl in *. constructor; auto.
          cbn [fst snd]. split; [intros; eapply Hp1; eauto|]. split; [intros; eapply Hp2; eauto|]. unfold holds. now rewrite (teqb_teval e f w E1). }
      clear E H. intros (R1 & R2). split.
      + clear R2. induction K as [|p q l m (K1 & K2 & _) K IH]; auto. destruct R1 as ((R1 & R1') & R2). cbn. auto.
      + clear R1. induction K as [|p q l m (K1 & K2 & K3) K IH]; constructor; inversion R2 as [|? ? F R3]; subst; auto.
        clear -F K K3. induction K as [|p' q' l m (_ & _ & K4) K IH]; constructor; inversion F; subst; auto. intros (A1 & B). auto.
    - rewrite !andb_true_iff in E. destruct E as ((E0 & E1) & E2). intros (R1 & R2). rewrite <- (peqb_hasinf _ _ E1). split; eauto.
      assert (Hk : k = k0) by (destruct k, k0; simpl in E0; congruence). subst k0. intros Hk. destruct (R2 Hk) as [R|[(R & R')|R]].
      + left. destruct s; try discriminate. destruct u; try discriminate. reflexivity.
      + right. left. rewrite <- (peqb_complemented _ _ E1). split; auto. eapply teqb_numv; eauto.
      + right. right. rewrite <- (teqb_symbols s u E2). auto.
    - revert l0 E. induction H as [|p l Hp H IH]; intros [|q m] E; try discriminate; auto. apply andb_true_iff in E. destruct E as (E1 & E2). cbn. intros (R1 & R2). split; eauto.
    - revert l0 E. induction H as [|p l Hp H IH]; intros [|q m] E; try discriminate; auto. apply andb_true_iff in E. destruct E as (E1 & E2). cbn. intros (R1 & R2). split; eauto.
  Qed.

  (** ** Literals that keep sorts, scope and regularity *)
  Context (V : string -> Prop) (A : asg -> Prop).
  Definition neat (l : tr) : Prop := gev l /\ sort_ok nominal l /\ (forall x, In x (symbols l) -> V x) /\ forall w, A w -> regular true l w.

  Lemma sort_nominal : forall k x v, gev (EBasic k (TId x) v : tr) -> sort_ok nominal (EBasic k (TId x) v) -> v <> PEmpty -> (k = KNom <-> nominal x = true).
  Proof.
    intros k x v G [(A1 & B)|(k' & x' & v' & E & Hn & K)] Ne.
    - specialize (B x (or_introl eq_refl)). destruct k; simpl in A; try tauto; split; congruence.
    - injection E as <- <- <-. tauto.
  Qed.
  Lemma neat_and_merge : forall k s v j t u r x, neat (EBasic k s v) -> neat (EBasic j t u) -> teqb t s = true -> pand io v u = Ok r -> event_of_set s r = Some x -> neat x.
  Proof.
    intros k s v j t u r x (G1 & S1 & V1 & R1) (G2 & S2 & V2 & R2) Et Hp Ex. pose proof (gev_wf _ _ _ G1) as (_ & W1 & _). pose proof (gev_wf _ _ _ G2) as (_ & W2 & _).
    destruct (pand_f io _ _ _ W1 W2 Hp) as (Wr & _ & _ & M). destruct (event_of_set_ok _ _ _ _ _ G1 Wr Ex) as (Gx & _). split; auto.
    assert (Rx : forall w, A w -> regular true x w) by (intros w Aw; apply (regular_merge io k s v j t u r); auto; intros g; eapply regular_flag; eauto).
    destruct S1 as [(A1 & B)|(k' & z & v' & E & Hn & K)].
    - assert (Nx : num_lit x) by (eapply num_merge; eauto). destruct (event_of_set_shape _ _ _ Ex) as (k1 & -> & _). split; [left; split; auto|]. split; auto.
    - injection E as <- -> <-. destruct (event_of_set_shape _ _ _ Ex) as (k1 & -> & _). split; [|split; auto]. right. exists k1, z, r. split; auto. split; auto.
      destruct (classic (r = PEmpty)) as [->|Ne]; auto. right. destruct (nonempty_mem r Wr Ne) as (y & Hy). apply (kind_mem _ _ _ _ Gx Hy). apply M in Hy. destruct Hy as (Hy & _). apply (kind_mem _ _ _ _ G1 Hy). destruct K as [->|K]; [destruct Hy|auto].
  Qed.
  Lemma neat_or_merge : forall k s v j t u r x, neat (EBasic k s v) -> neat (EBasic j t u) -> teqb t s = true -> por io v u = Ok r -> event_of_set s r = Some x -> neat x.
  Proof.
    intros k s v j t u r x (G1 & S1 & V1 & R1) (G2 & S2 & V2 & R2) Et Hp Ex. pose proof (gev_wf _ _ _ G1) as (_ & W1 & _). pose proof (gev_wf _ _ _ G2) as (_ & W2 & _).
    pose proof (por_spec io _ _ _ W1 W2 Hp) as (Wr & M & _ & _ & Em). destruct (event_of_set_ok _ _ _ _ _ G1 Wr Ex) as (Gx & _).
    destruct (event_of_set_shape _ _ _ Ex) as (k1 & -> & Kn).
    assert (Ne : forall y (v : pset), mem y v -> v <> PEmpty) by (intros y v' Hy ->; destruct Hy).
    assert (S : sort_ok nominal (EBasic k1 s r)).
    { destruct S1 as [(A1 & B)|(k' & z & v' & E & Hn & K)].
      - left. split; auto. destruct k1; cbn; auto. assert (Nr : r <> PEmpty) by (intros ->; destruct Kn as (Kn & _); exact (Kn eq_refl)). destruct (nonempty_mem r Wr Nr) as (y & Hy). pose proof (kind_mem _ _ _ _ Gx Hy) as Ky.
        destruct Ky as (Ky & _). specialize (Ky eq_refl). apply M in Hy. destruct Hy as [Hy|Hy].
        + apply (kind_mem _ _ _ _ G1 Hy) in Ky. subst k. exact A1.
        + apply (kind_mem _ _ _ _ G2 Hy) in Ky. subst j. destruct S2 as [(A2 & _)|(k' & z & v' & E & Hn & _)]; [exact A2|]. injection E as <- -> <-. apply teqb_symbols in Et. specialize (B z). cbn [symbols] in *. rewrite <- Et in B. rewrite B in Hn by (now left). discriminate.
      - right. injection E as <- -> <-. exists k1, z, r. split; auto. split; auto. destruct (classic (r = PEmpty)) as [->|Nr]; auto. right. destruct (nonempty_mem r Wr Nr) as (y & Hy). pose proof (kind_mem _ _ _ _ Gx Hy) as Ky.
        destruct t; try discriminate Et. cbn [teqb] in Et. apply String.eqb_eq in Et. subst x.
        apply Ky. apply M in Hy. destruct Hy as [Hy|Hy]; [apply (kind_mem _ _ _ _ G1 Hy)|apply (kind_mem _ _ _ _ G2 Hy)].
        + apply (sort_nominal k z v); auto; [|now apply (Ne y)]. right. exists k, z, v. auto.
        + apply (sort_nominal j z u); auto. now apply (Ne y). }
    split; auto. split; auto. split; auto. intros w Aw. specialize (R1 w Aw). specialize (R2 w Aw). cbn [regular]. split.
    - cbn [regular] in R1, R2. destruct R1 as (R1 & _), R2 as (R2 & _). destruct (hasinf r) eqn:Hr; [|destruct (hasinf v); auto using regular_mono].
      apply hasinf_mem in Hr. destruct Hr as (y & H1 & H2). apply M in H1. destruct H1 as [H1|H1].
      + now rewrite (mem_inf_hasinf _ _ _ _ G1 H1 H2) in R1.
      + rewrite (mem_inf_hasinf _ _ _ _ G2 H1 H2) in R2. eapply teqb_regular; eauto.
    - intros ->. destruct S as [(A1 & _)|(k' & z & v' & E & _)]; [destruct A1|]. injection E as _ -> _. now left.
  Qed.
  Lemma neat_and : forall a b e, ev_and io a b = Ok e -> Forall neat (lits a) -> Forall neat (lits b) -> Forall neat (lits e).
  Proof. intros a b e H. apply (ev_and_lits io _ a b e H). intros k s v j t u r x. apply neat_and_merge. Qed.
  Lemma neat_or : forall a b e, ev_or io a b = Ok e -> Forall neat (lits a) -> Forall neat (lits b) -> Forall neat (lits e).
  Proof. intros a b e H. apply (ev_or_lits io _ a b e H). intros k s v j t u r x. apply neat_or_merge. Qed.
  Lemma void_or : forall (a b e : tr), ev_or io a b = Ok e -> Forall (fun l => gev l /\ nonvoid l) (lits a) -> Forall (fun l => gev l /\ nonvoid l) (lits b) -> Forall (fun l => gev l /\ nonvoid l) (lits e).
  Proof.
    intros a b e H. apply (ev_or_lits io _ a b e H). intros k s v j t u r x (G1 & N1) (G2 & N2) Et Hp Ex. pose proof (gev_wf _ _ _ G1) as (_ & W1 & _). pose proof (gev_wf _ _ _ G2) as (_ & W2 & _).
    pose proof (por_spec io _ _ _ W1 W2 Hp) as (Wr & M & _ & _ & Em). destruct (event_of_set_ok _ _ _ _ _ G1 Wr Ex) as (Gx & _). split; auto.
    destruct (event_of_set_shape _ _ _ Ex) as (k1 & -> & Kn). destruct r; try exact Logic.I. destruct (Em eq_refl) as (-> & _). destruct N1.
  Qed.
  Definition one_var (l : tr) : Prop := exists x, only x l.
  Lemma one_and : forall a b e, ev_and io a b = Ok e -> univariate a -> univariate b -> univariate e.
  Proof. intros a b e H. apply (ev_and_lits io _ a b e H). intros k s v j t u r x (y & O) _ _ _ Ex. destruct (event_of_set_shape _ _ _ Ex) as (k1 & -> & _). exists y. exact O. Qed.
  Lemma one_or : forall a b e, ev_or io a b = Ok e -> univariate a -> univariate b -> univariate e.
  Proof. intros a b e H. apply (ev_or_lits io _ a b e H). intros k s v j t u r x (y & O) _ _ _ Ex. destruct (event_of_set_shape _ _ _ Ex) as (k1 & -> & _). exists y. exact O. Qed.

  Lemma inv_basic_kind : forall k t v (n : tr), inv_basic io k t v = Ok n -> Forall (fun l => exists j u, l = EBasic j t u /\ (j = KNom <-> k = KNom) /\ hasinf u = false) (lits n).
  Proof.
    intros k t v n H. unfold inv_basic in H. inv_bind H. destruct k.
    - destruct r as [|[]|[|a [|b [|]]]]; try discriminate; try (injection H as <-; cbn; constructor; auto; eexists; eexists; split; [reflexivity|split; [split; discriminate|reflexivity]]).
      inv_bind H. inv_bind H. apply EventOr_shape in H. subst n. destruct a; try discriminate. destruct b; try discriminate.
      injection E0 as <-. injection E1 as <-. cbn. constructor; [|constructor; [|constructor]]; eexists; eexists; (split; [reflexivity|split; [split; discriminate|reflexivity]]).
    - destruct (peqb r Reals); [injection H as <-; cbn; constructor; auto; eexists; eexists; split; [reflexivity|split; [split; discriminate|reflexivity]]|]. destruct r as [| |args]; try discriminate.
      inv_bind H. apply EventOr_shape in H. subst n. cbn [lits]. apply mapM_Forall2 in E0. apply lits_list.
      clear -E0. induction E0 as [|a y l m H E IH]; constructor; auto. destruct a; try discriminate. injection H as <-. cbn. constructor; auto. eexists; eexists; (split; [reflexivity|split; [split; discriminate|reflexivity]]).
    - destruct r as [|[]|]; try discriminate; injection H as <-; cbn; constructor; auto; eexists; eexists; (split; [reflexivity|split; [tauto|reflexivity]]).
  Qed.
  Lemma neat_not : forall (e n : tr), gev e -> ev_not io e = Ok n -> Forall neat (lits e) -> Forall nonvoid (lits e) -> Forall neat (lits n).
  Proof.
    induction e using tr_ind'; intros n G H' F Nv; cbn [ev_not] in H'; try discriminate.
    - pose proof (ev_not_ok io (EBasic k e v) n G H') as (Gn & _). pose proof (gev_lits _ Gn) as Gl. apply inv_basic_kind in H'. inversion F as [|? ? (_ & S & Vs & Rg) _]; subst. inversion Nv as [|? ? Nv' _]; subst. rewrite Forall_forall in *.
      intros l Hl. destruct (H' l Hl) as (j & u & -> & Hj & Hu). destruct (Gl _ Hl) as (Gl' & _). split; auto. split; [|split; auto].
      + destruct S as [(A1 & B)|(k' & z & v' & E & Hn & K)].
        * left. split; auto. destruct j; cbn; auto. destruct Hj as (Hj & _). rewrite (Hj eq_refl) in A1. exact A1.
        * injection E as <- -> <-. right. exists j, z, u. split; auto. split; auto. right. apply Hj. destruct K as [->|K]; auto. destruct Nv'.
      + intros w Aw. specialize (Rg w Aw). cbn [regular] in *. rewrite Hu. destruct Rg as (R1 & R2). split; [destruct (hasinf v); auto using regular_mono|]. intros ->.
        destruct S as [(A1 & _)|(k' & z & v' & E & _)]; [|injection E as _ -> _; now left]. assert (k = KNom) as -> by tauto. destruct A1.
    - inv_bind H'. apply gev_or in G. destruct G as (_ & G). cbn [lits] in F, Nv. apply lits_list in F. apply lits_list in Nv. apply mapM_Forall2 in E.
      eapply (reduce_lits (ev_and io)); [|exact H'|]; [intros a b c; apply neat_and|]. rewrite Forall_forall in H, G, F, Nv. apply Forall_forall. intros y Hy. destruct (ArithProofs.Forall2_in_r _ _ _ _ _ _ E Hy) as (x & Hx & Ex). apply (H x); auto.
    - inv_bind H'. apply gev_and in G. destruct G as (_ & G). cbn [lits] in F, Nv. apply lits_list in F. apply lits_list in Nv. apply mapM_Forall2 in E.
      eapply (reduce_lits (ev_or io)); [|exact H'|]; [intros a b c; apply neat_or|]. rewrite Forall_forall in H, G, F, Nv. apply Forall_forall. intros y Hy. destruct (ArithProofs.Forall2_in_r _ _ _ _ _ _ E Hy) as (x & Hx & Ex). apply (H x); auto.
  Qed.
  Lemma one_not : forall (e n : tr), ev_not io e = Ok n -> univariate e -> univariate n.
  Proof.
    induction e using tr_ind'; intros n H' Un; cbn [ev_not] in H'; try discriminate.
    - apply inv_basic_kind in H'. unfold univariate in *. cbn [lits] in Un. inversion Un as [|? ? (x & O) _]; subst. eapply Forall_impl; [|exact H']. intros l (j & u & -> & _). exists x. exact O.
    - inv_bind H'. unfold univariate in *. cbn [lits] in Un. apply lits_list in Un. apply mapM_Forall2 in E.
      eapply (reduce_lits (ev_and io)); [|exact H'|]; [intros a b c; apply one_and|]. rewrite Forall_forall in H, Un. apply Forall_forall. intros y Hy. destruct (ArithProofs.Forall2_in_r _ _ _ _ _ _ E Hy) as (x & Hx & Ex). apply (H x); auto; apply Un; auto.
    - inv_bind H'. unfold univariate in *. cbn [lits] in Un. apply lits_list in Un. apply mapM_Forall2 in E.
      eapply (reduce_lits (ev_or io)); [|exact H'|]; [intros a b c; apply one_or|]. rewrite Forall_forall in H, Un. apply Forall_forall. intros y Hy. destruct (ArithProofs.Forall2_in_r _ _ _ _ _ _ E Hy) as (x & Hx & Ex). apply (H x); auto; apply Un; auto.
  Qed.

  (** ** The events of IfElse *)
  Definition clear (e : tr) : Prop := forall w, A w -> regular true e w /\ teval e w <> None.
  (** the event d stands for P; None stands for an impossible event *)
  Definition event_for (P : asg -> Prop) (o : option tr) : Prop :=
    match o with
    | Some d => ask_ok nominal V d /\ (forall w g, regular g d w) /\ forall w, A w -> (holds d w <-> P w)
    | None => forall w, A w -> ~ P w
    end.
  Definition raw_for (P : asg -> Prop) (d : tr) : Prop := gev d /\ Forall neat (lits d) /\ forall w, A w -> (holds d w <-> P w).

  Lemma lits_neat : forall e, ask_ok nominal V e -> (forall w, A w -> regular true e w) -> Forall neat (lits e).
  Proof.
    intros e (G & Un & So & Sy) R. pose proof (gev_lits _ G) as Gl. unfold event_sorts in So. rewrite Forall_forall in *. intros l Hl. destruct (Gl l Hl) as (Gl' & _). split; auto. split; auto. split.
    - intros x Hx. apply Sy. apply symbols_lits. eauto.
    - intros w Aw. specialize (R w Aw). rewrite (regular_lits e true w G), Forall_forall in R. auto.
  Qed.
  Lemma neat_event : forall d, gev d -> Forall neat (lits d) -> event_sorts nominal d /\ (forall x, In x (symbols d) -> V x) /\ forall w, A w -> regular true d w.
  Proof.
    intros d G F. rewrite Forall_forall in F. split; [apply Forall_forall; intros l Hl; apply (F l Hl)|]. split.
    - intros x Hx. apply symbols_lits in Hx. destruct Hx as (l & Hl & Hx). destruct (F l Hl) as (_ & _ & K & _). auto.
    - intros w Aw. apply regular_lits; auto. apply Forall_forall. intros l Hl. destruct (F l Hl) as (_ & _ & _ & K). auto.
  Qed.
  Lemma determined : forall (e : tr) w, gev e -> teval e w <> None -> (~ holds e w <-> fails e w).
  Proof.
    intros e w G Df. destruct (defined_cases e w (proj2 G) Df) as [T|T].
    - split; [tauto|]. intros F. exfalso. exact (not_both e w T F).
    - split; auto. intros _ T'. exact (not_both e w T' T).
  Qed.
  Lemma cascade_for : forall o e d P, raw_for P e -> Forall (fun x => guard nominal V x /\ clear x) o -> cascade io (e, o) = Ok d ->
    raw_for (fun w => (forall x, In x o -> ~ holds x w) /\ P w) d.
  Proof.
    intros o e d P (G & Ne & Hp) Fo H.
    assert (Go : Forall gev o) by (eapply Forall_impl; [|exact Fo]; intros x (((K & _) & _) & _); exact K).
    destruct (cascade_ok io (e, o) d G Go H) as (Gd & Hd). cbn [fst snd] in Hd. split; auto. split.
    - clear Hp Hd Gd Go. unfold cascade in H. cbn [fst snd] in H. revert e G Ne H. induction Fo as [|x o ((Ax & Nx) & Cx) Fo IH]; intros e G Ne H; cbn [foldM] in H; [now injection H as <-|]. inv_bind H. inv_bind E.
      destruct (ev_not_ok io _ _ (proj1 Ax) E0) as (Gn & _). destruct (ev_and_ok io _ _ _ G Gn E) as (Gr & _). apply (IH r); auto. eapply neat_and; [exact E|auto|]. eapply neat_not; [|exact E0| |]; auto; [apply Ax|]. apply lits_neat; auto. intros w Aw. now apply Cx.
    - intros w Aw. rewrite Hd, (Hp w Aw). rewrite Forall_forall in Fo. split.
      + intros (K1 & K2). split; auto. intros x Hx. destruct (Fo x Hx) as (((Gx & _) & _) & Cx). apply (determined x w); auto. now apply Cx.
      + intros (K1 & K2). split; auto. intros x Hx. destruct (Fo x Hx) as (((Gx & _) & _) & Cx). apply (determined x w); auto. now apply Cx.
  Qed.
  Lemma raw_iff : forall P Q d, (forall w, P w <-> Q w) -> raw_for P d -> raw_for Q d.
  Proof. intros P Q d H (G & Ne & K). split; auto. split; auto. intros w Aw. rewrite <- H. auto. Qed.
  Lemma raw_guard : forall e, guard nominal V e -> clear e -> raw_for (holds e) e.
  Proof. intros e (Ae & _) C. split; [apply Ae|]. split; [|tauto]. apply lits_neat; auto. intros w Aw. now apply C. Qed.

  Lemma Forall2_map_r : forall X Y Z (R : X -> Z -> Prop) (g : Y -> Z) l m, Forall2 (fun x y => R x (g y)) l m -> Forall2 R l (map g m).
  Proof. intros X Y Z R g l m F. induction F; constructor; auto. Qed.
  Lemma Forall2_weaken : forall X Y (R Q : X -> Y -> Prop) l m, (forall x y, In x l -> In y m -> R x y -> Q x y) -> Forall2 R l m -> Forall2 Q l m.
  Proof. intros X Y R Q l m H F. induction F; constructor; [apply H; simpl; auto|]. apply IHF. intros; apply H; simpl; auto. Qed.

  Lemma in_somes : forall X (l : list (option X)) x, In x (somes l) <-> In (Some x) l.
  Proof.
    intros X l x. induction l as [|[y|] l IH]; simpl; [tauto| |].
    - rewrite IH. split; intros [H|H]; auto; left; congruence.
    - rewrite IH. split; [tauto|]. intros [H|H]; auto. discriminate.
  Qed.
  Section Branches.
    Context {B : Type}.
    Notation branch := (option tr * B)%type.
    Definition tests (bs : list branch) : list ((asg -> Prop) * B) := map (fun b => (test (fst b), snd b)) bs.
    Lemma first_events_ok : forall (bs : list branch) seen ds, Forall (fun x => guard nominal V x /\ clear x) seen ->
      (forall e, In (Some e) (map fst bs) -> guard nominal V e /\ clear e) -> first_events io seen (map fst bs) = Ok ds ->
      Forall2 (fun d q => raw_for (fun w => (forall x, In x seen -> ~ holds x w) /\ fst q w) d) ds (firsts (tests bs)).
    Proof.
      induction bs as [|(o, b) bs IH]; intros seen ds Fs Fb H; cbn [map fst first_events] in H.
      - injection H as <-. constructor.
      - destruct o as [e|]; [|discriminate]. inv_bind H. inv_bind H. injection H as <-. destruct (Fb e (or_introl eq_refl)) as (Ge & Ce). cbn [tests map firsts fst snd test].
        constructor.
        + cbn [fst]. apply (cascade_for seen e); auto. now apply raw_guard.
        + apply Forall2_map_r. cbn [fst]. eapply Forall2_weaken; [|apply (IH (seen ++ [e]) r0); auto].
          * intros d q _ _ K. refine (raw_iff _ _ _ _ K). intros w. split.
            -- intros (K1 & K2). split; [intros x Hx; apply K1; apply in_app_iff; auto|]. split; auto. apply K1. apply in_app_iff. simpl. auto.
            -- intros (K1 & K2 & K3). split; auto. intros x Hx. apply in_app_iff in Hx. destruct Hx as [Hx|[<-|[]]]; auto.
          * apply Forall_app. auto.
          * intros e' He'. apply Fb. now right.
    Qed.
    Lemma or_determined : forall (a b e : tr) w, gev a -> gev b -> nonvoid a -> nonvoid b -> ev_or io a b = Ok e -> fails a w -> fails b w -> fails e w.
    Proof.
      intros a b e w Ga Gb Na Nb H Fa Fb. destruct (classic (same_sort a b)) as [S|S]; [apply (ev_or_fails io a b e); auto|].
      destruct a as [| | | | | | | |k s v|l|l]; try (exfalso; apply S; exact Logic.I). destruct b as [| | | | | | | |j t u|m|m]; try (exfalso; apply S; exact Logic.I). cbn [ev_or] in H. destruct (teqb t s) eqn:Et.
      - exfalso. apply S. cbn [same_sort]. apply fails_basic in Fa, Fb. destruct Fa as (y & Ey & Ty & _), Fb as (z & Ez & Tz & _). rewrite (teqb_teval t s w Et), Ey in Ez. injection Ez as <-. destruct k, j, y; simpl in Ty, Tz; try tauto; split; discriminate.
      - apply EventOr_shape in H. subst e. apply fails_or. intros e [<-|[<-|[]]]; auto.
    Qed.
    Lemma nonvoid_top : forall e : tr, Forall nonvoid (lits e) -> nonvoid e.
    Proof. intros [] F; try exact Logic.I. inversion F; subst; auto. Qed.
    Lemma reduce_else : forall (l : list tr) u, Forall (fun x => guard nominal V x /\ clear x) l -> reduceM (ev_or io) l = Ok u ->
      gev u /\ Forall neat (lits u) /\ Forall nonvoid (lits u) /\ forall w, A w -> (fails u w <-> forall x, In x l -> ~ holds x w).
    Proof.
      intros [|a l] u F H; [discriminate|]. cbn [reduceM] in H. inversion F as [|? ? (Ga & Ca) Fl]; subst. clear F.
      assert (K : forall l a u, gev a -> Forall neat (lits a) -> Forall nonvoid (lits a) -> (forall w, A w -> holds a w \/ fails a w) -> Forall (fun x => guard nominal V x /\ clear x) l -> foldM (ev_or io) l a = Ok u ->
        gev u /\ Forall neat (lits u) /\ Forall nonvoid (lits u) /\ (forall w, A w -> holds u w \/ fails u w) /\ forall w, A w -> (fails u w <-> fails a w /\ forall x, In x l -> fails x w)).
      { clear. induction l as [|b l IH]; intros a u Ga Na Va Da Fl H; cbn [foldM] in H.
        - injection H as <-. do 4 (split; auto). intros w _. split; [intros Fw; split; auto; intros x []|tauto].
        - inv_bind H. inversion Fl as [|? ? ((Ab & Nb) & Cb) Fl']; subst. pose proof (proj1 Ab) as Gb. destruct (ev_or_ok io a b r Ga Gb E) as (Gr & Hr).
          assert (Neat : Forall neat (lits r)) by (eapply neat_or; [exact E|auto|apply lits_neat; auto; intros w Aw; now apply Cb]).
          assert (Void : Forall nonvoid (lits r)).
          { assert (K : Forall (fun l => gev l /\ nonvoid l) (lits r)); [|eapply Forall_impl; [|exact K]; intros x (_ & Kx); exact Kx].
            assert (Z : forall e : tr, gev e -> Forall nonvoid (lits e) -> Forall (fun l => gev l /\ nonvoid l) (lits e)) by (intros e Ge Fe; pose proof (gev_lits _ Ge) as Gl; rewrite Forall_forall in *; intros x Hx; split; auto; apply (Gl x Hx)).
            apply (void_or a b r E); auto. }
          assert (Db : forall w, A w -> holds b w \/ fails b w) by (intros w Aw; apply defined_cases; [apply Gb|now apply Cb]).
          assert (Fr : forall w, fails a w -> fails b w -> fails r w) by (intros w; apply (or_determined a b r w); auto using nonvoid_top).
          destruct (IH r u Gr Neat Void) as (K1 & K2 & K3 & K4 & K5); auto.
          + intros w Aw. destruct (Da w Aw), (Db w Aw); auto; left; apply Hr; auto.
          + do 4 (split; auto). intros w Aw. rewrite (K5 w Aw). split.
            * intros (Kr & Kl). assert (~ holds a w /\ ~ holds b w) as (Na' & Nb') by (split; intros Kh; apply (not_both r w); auto; apply Hr; auto).
              destruct (Da w Aw); [tauto|]. destruct (Db w Aw); [tauto|]. split; auto. intros x [<-|Hx]; auto.
            * intros (Ka & Kl). split; [apply Fr; auto; apply Kl; now left|]. intros x Hx. apply Kl. now right. }
      destruct (K l a u (proj1 (proj1 Ga))) as (K1 & K2 & K3 & _ & K5); auto.
      - apply lits_neat; [apply Ga|]. intros w Aw. now apply Ca.
      - apply Ga.
      - intros w Aw. apply defined_cases; [apply Ga|now apply Ca].
      - do 3 (split; auto). intros w Aw. rewrite (K5 w Aw). rewrite Forall_forall in Fl.
        assert (Z : forall x, In x (a :: l) -> (~ holds x w <-> fails x w)).
        { intros x [<-|Hx]; apply determined; [apply Ga|now apply Ca|apply (Fl x Hx)|]. destruct (Fl x Hx) as (_ & Cx). now apply Cx. }
        split.
        + intros (Fa & Fx) x Hx. apply Z; auto. destruct Hx as [<-|Hx]; auto.
        + intros Nh. split; [apply Z; [now left|apply Nh; now left]|]. intros x Hx. apply Z; [now right|apply Nh; now right].
    Qed.
    Lemma firsts_last : forall (l : list ((asg -> Prop) * B)) p, exists P, firsts (l ++ [p]) = firsts l ++ [(P, snd p)] /\ forall a, P a <-> (forall q, In q l -> ~ fst q a) /\ fst p a.
    Proof.
      induction l as [|q l IH]; intros p.
      - exists (fst p). split; [destruct p; reflexivity|]. intros a. split; [intros H; split; auto; intros q []|tauto].
      - destruct (IH p) as (P & E & H). exists (fun a => ~ fst q a /\ P a). split.
        + cbn [app firsts]. rewrite E, map_app. reflexivity.
        + intros a. rewrite H. split.
          * intros (K1 & K2 & K3). split; auto. intros q' [<-|Hq]; auto.
          * intros (K1 & K2). split; [apply K1; now left|]. split; auto. intros q' Hq. apply K1. now right.
    Qed.
    Lemma normalize_for : forall P e o, raw_for P e -> dnf_normalize io po fuel e = Ok o -> event_for P o.
    Proof.
      intros P e o (G & Ne & Hp) H. destruct (neat_event e G Ne) as (So & Sy & Rg). destruct o as [d|].
      - destruct (C17_some io po fuel e d G H) as (Gd & _ & Ov & Sd & Hd). split; [|split].
        + split; auto. split; [|split].
          * eapply Forall_impl; [|exact Ov]. intros l (k & x & v & ->). exists x. intros y [<-|[]]. reflexivity.
          * exact (normalize_event_sorts io po fuel nominal e d G So H).
          * intros x Hx. auto.
        + intros w g. now apply on_vars_regular.
        + intros w Aw. rewrite (Hd w) by auto. auto.
      - intros w Aw. rewrite <- (Hp w Aw). apply (C17_none io po fuel e G H w). auto.
    Qed.
    Lemma if_events_ok : forall (bs : list branch) evs, (forall e, In (Some e) (map fst bs) -> guard nominal V e /\ clear e) -> if_events io po fuel (map fst bs) = Ok evs ->
      Forall2 (fun o q => event_for (fst q) o) evs (firsts (tests bs)).
    Proof.
      intros bs evs Fb H. unfold if_events in H. inv_bind H. apply mapM_Forall2 in H.
      assert (K : Forall2 (fun d q => raw_for (fst q) d) r (firsts (tests bs))).
      { clear H evs. destruct (rev (map fst bs)) as [|o front] eqn:Er; [discriminate|]. destruct o as [e|].
        - eapply Forall2_weaken; [|apply (first_events_ok bs [] r); auto]. intros d q _ _ K. refine (raw_iff _ _ _ _ K). intros w. split; [tauto|]. intros K'. split; [intros x []|auto].
        - destruct bs as [|b0 bs0 _] using rev_ind; [discriminate|]. rewrite map_app, rev_app_distr in Er. cbn in Er. injection Er as Eo Ef. rewrite <- Ef, rev_involutive in E.
          inv_bind E. inv_bind E. inv_bind E. injection E as <-. unfold tests. rewrite map_app. cbn [map]. fold (tests bs0). destruct (firsts_last (tests bs0) (test (fst b0), snd b0)) as (P & -> & HP).
          assert (Fb0 : forall e, In (Some e) (map fst bs0) -> guard nominal V e /\ clear e) by (intros e He; apply Fb; rewrite map_app; apply in_app_iff; auto).
          apply Forall2_app.
          + eapply Forall2_weaken; [|apply (first_events_ok bs0 [] r0); auto]. intros d q _ _ K. refine (raw_iff _ _ _ _ K). intros w. split; [tauto|]. intros K'. split; [intros x []|auto].
          + constructor; [|constructor]. cbn [fst].
            assert (Fs : Forall (fun x => guard nominal V x /\ clear x) (somes (map fst bs0))).
            { apply Forall_forall. intros x Hx. apply in_somes in Hx. auto. }
            destruct (reduce_else _ _ Fs E1) as (Gu & Nu & Vu & Hu). destruct (ev_not_ok io _ _ Gu E2) as (Gn & Hn). split; auto. split; [eapply neat_not; [|exact E2| |]; auto|].
            intros w Aw. rewrite Hn, (Hu w Aw), HP. cbn [fst]. rewrite Eo. cbn [test]. 
            assert (Fi : first_events io [] (map fst bs0) = Ok r0 -> forall o, In o (map fst bs0) -> exists e, o = Some e).
            { clear. generalize (@nil tr). revert r0. induction (map fst bs0) as [|o l IH]; intros r0 seen H o' Ho'; [destruct Ho'|]. cbn [first_events] in H. destruct o as [e|]; [|discriminate]. inv_bind H. inv_bind H. destruct Ho' as [<-|Ho']; eauto. }
            split.
            * intros K. split; auto. intros q Hq. unfold tests in Hq. apply in_map_iff in Hq. destruct Hq as (b & <- & Hb). cbn [fst]. destruct (Fi E0 (fst b)) as (e & Ee); [now apply in_map|]. rewrite Ee. cbn [test]. apply K. apply in_somes. rewrite <- Ee. now apply in_map.
            * intros (K & _) x Hx. apply in_somes in Hx. apply in_map_iff in Hx. destruct Hx as (b & Eb & Hb). specialize (K (test (fst b), snd b)). cbn [fst] in K. rewrite Eb in K. apply K. unfold tests. apply in_map_iff. exists b. split; auto. now rewrite Eb. }
      clear -K H. revert evs H. induction K as [|d q r l Kd K IH]; intros evs H; inversion H as [|? o ? evs' Ho H']; subst; constructor; auto. eapply normalize_for; eauto.
    Qed.
  End Branches.

  (** ** The events of Switch *)
  (** a set for x: it has the sort of x, or is empty *)
  Definition sort_for (x : string) (v : pset) : Prop := wf v /\ (v = PEmpty \/ sort_set nominal x v).
  Lemma and_sort : forall x v u r, sort_for x v -> sort_for x u -> pand io v u = Ok r -> sort_for x r /\ forall y, fm y r <-> fm y v /\ fm y u.
  Proof.
    intros x v u r (Wv & Sv) (Wu & Su) H. pose proof H as H0. apply pand_f in H; auto. destruct H as (Wr & Fr & Rr & _). split; auto. split; auto.
    destruct Sv as [->|Sv]; [left; simpl in H0; congruence|]. destruct Su as [->|Su]; [left; destruct v; simpl in H0; congruence|].
    unfold sort_set in *. destruct (nominal x); [|right; auto].
    destruct v as [|[vs f| |]|]; try contradiction. destruct u as [|[us g| |]|]; try contradiction. cbn in H0. injection H0 as <-. unfold and_nom, fnom_or_empty. destruct (negb (truthy f)), (negb (truthy g)); try (right; exact Logic.I); destruct (dedup _ _); auto; right; exact Logic.I.
  Qed.
  Lemma inv_sort : forall x v r, sort_for x v -> pinv io v = Ok r -> v <> PEmpty ->
    sort_for x r /\ forall y, (if nominal x then exists s, y = FStr s else exists c, y = FNum c) -> (fm y r <-> ~ fm y v).
  Proof.
    intros x v r (Wv & Sv) H Ne. destruct Sv as [->|Sv]; [congruence|]. unfold sort_for, sort_set in *. destruct (nominal x).
    - destruct v as [|[vs f| |]|]; try contradiction. destruct (pinv_nom_ok io vs f Wv) as (r' & E & Wr & Sr & Mr). rewrite E in H. injection H as <-. split.
      + split; auto. destruct r' as [|[]|]; try contradiction; [now left|right; exact Logic.I].
      + intros y (s & ->). exact (Mr s).
    - apply pinv_f in H; auto. destruct H as (Wr & Rr & Fr & _). split; [split; auto|]. intros y (c & ->). rewrite Fr. split; [intros (_ & _ & K); exact K|eauto].
  Qed.
  Lemma sort_member : forall x v y, sort_for x v -> fm y v -> if nominal x then exists s, y = FStr s else exists c, y = FNum c.
  Proof.
    intros x v y (Wv & [->|Sv]) M; [destruct y; contradiction|]. unfold sort_set in Sv. destruct (nominal x).
    - destruct v as [|[vs f| |]|]; try contradiction. destruct y as [c|s]; eauto. cbn in M. contradiction.
    - destruct y as [c|s]; eauto. exfalso. destruct v as [|b|u]; unfold fm in M; simpl in *; auto.
      + destruct b; simpl in *; auto.
      + destruct M as (b & Hb & M). rewrite Forall_forall in Sv. specialize (Sv b Hb). destruct b; simpl in *; auto.
  Qed.
  Lemma minus_sort : forall x seen v r, Forall (fun u => sort_for x u /\ u <> PEmpty) seen -> sort_for x v ->
    foldM (fun d s => do n <- pinv io s; pand io d n) seen v = Ok r ->
    sort_for x r /\ forall y, fm y r <-> fm y v /\ forall u, In u seen -> ~ fm y u.
  Proof.
    intros x seen v r F. revert v. induction F as [|u seen (Su & Nu) F IH]; intros v Sv H; cbn [foldM] in H.
    - injection H as <-. split; auto. intros y. split; [intros M; split; auto; intros u []|tauto].
    - inv_bind H. inv_bind E. destruct (inv_sort x u r1 Su E0 Nu) as (Sn & Mn). destruct (and_sort x v r1 r0 Sv Sn E) as (Sr & Mr).
      destruct (IH r0 Sr H) as (S & M). split; auto. intros y. rewrite M, Mr. split.
      + intros ((M1 & M2) & M3). split; auto. intros u' [<-|Hu]; auto. apply (Mn y); auto. now apply (sort_member x v).
      + intros (M1 & M2). split; [split; auto; apply Mn; [now apply (sort_member x v)|apply M2; now left]|intros u' Hu; apply M2; now right].
  Qed.
  Lemma value_set : forall x c v, case_ok nominal x c -> value_to_set c = Ok v -> sort_for x v /\ v <> PEmpty /\ forall w, fm (w x) v <-> matches x c w.
  Proof.
    intros x [s|s|c] v C H; cbn in *.
    - injection H as <-. destruct C as (W & Ne & Sv). split; [split; auto|]. split; auto. tauto.
    - injection H as <-. unfold sort_for, sort_set. rewrite C. split; [split; [|right; exact Logic.I]|split; [discriminate|]].
      + cbn. split; [constructor; auto; constructor|]. left. discriminate.
      + intros w. destruct (w x); unfold fm; cbn; [split; [tauto|discriminate]|]. split; [intros [->|[]]; reflexivity|]. intros K. injection K as ->. auto.
    - injection H as <-. unfold sort_for, sort_set. rewrite C. split; [split; [|right; exact Logic.I]|split; [discriminate|]].
      + cbn. split; [constructor; auto; constructor|discriminate].
      + intros w. destruct (w x) as [a|a]; unfold fm; cbn.
        * split; [intros (y & [<-|[]] & E); injection E as <-; reflexivity|]. intros E. injection E as ->. exists (Fin c). auto.
        * split; [tauto|discriminate].
  Qed.
  Lemma in_event : forall x v e, V x -> sort_for x v -> t_in io (TId x) v = Ok e ->
    ask_ok nominal V e /\ (forall w g, regular g e w) /\ forall w, holds e w <-> fm (w x) v.
  Proof.
    intros x v e Vx (Wv & Sv) H. destruct (t_in_ok io (TId x) v e) as (G & Hold); cbn; auto. pose proof (t_in_lits io x v e H) as Lo.
    assert (Ov : on_vars e) by (eapply Forall_impl; [|exact Lo]; intros l (k & u & ->); exists k, x, u; reflexivity). split; [|split].
    - split; auto. split; [|split].
      + eapply Forall_impl; [|exact Lo]. intros l (k & u & ->). exists x. intros y [<-|[]]. reflexivity.
      + destruct Sv as [->|Sv].
        * injection H as <-. constructor; [|constructor]. destruct (nominal x) eqn:Hn.
          -- right. exists KReal, x, PEmpty. auto.
          -- left. split; [exact Logic.I|]. intros y [<-|[]]. exact Hn.
        * destruct (classic (v = PEmpty)) as [->|Ne].
          { unfold sort_set in Sv. destruct (nominal x) eqn:Hn; [destruct Sv|]. injection H as <-. constructor; [|constructor]. left. split; [exact Logic.I|]. intros y [<-|[]]. exact Hn. }
          destruct (t_in_sorted io nominal x v e Wv Ne Sv H) as (Fs & _). eapply Forall_impl; [|exact Fs]. intros l (_ & k & y & u & -> & Nu & Hk). destruct (nominal y) eqn:Hn.
          -- right. exists k, y, u. split; auto. split; auto. right. tauto.
          -- left. split; [destruct k; cbn; auto; destruct Hk as (Hk & _); discriminate (Hk eq_refl)|]. intros z [<-|[]]. exact Hn.
      + intros y Hy. apply symbols_lits in Hy. destruct Hy as (l & Hl & Hy). rewrite Forall_forall in Lo. destruct (Lo l Hl) as (k & u & ->). destruct Hy as [<-|[]]. exact Vx.
    - intros w g. now apply on_vars_regular.
    - intros w. rewrite Hold. cbn [teval]. split; [intros (y & E & M); injection E as <-; exact M|eauto].
  Qed.
  Lemma switch_events_ok : forall {B} x vs (b : nat * sval (N:=N) -> B) evs, V x -> Forall (case_ok nominal x) vs -> switch_events io x vs = Ok evs ->
    forall ns, List.length ns = List.length vs ->
    Forall2 (fun o q => event_for (fst q) o) evs (firsts (map (fun p => (matches x (snd p), b p)) (combine ns vs))).
  Proof.
    intros B x vs b evs Vx Fv H ns Ln. unfold switch_events in H. inv_bind H. inv_bind H. apply mapM_Forall2 in E, H.
    assert (K : Forall2 (fun d q => sort_for x d /\ forall w, fm (w x) d <-> fst q w) r0 (firsts (map (fun p => (matches x (snd p), b p)) (combine ns vs)))).
    { assert (Z : forall vs r, Forall (case_ok nominal x) vs -> Forall2 (fun c v => value_to_set c = Ok v) vs r -> forall seen r0 ns, List.length ns = List.length vs -> Forall (fun u => sort_for x u /\ u <> PEmpty) seen -> disjoint_sets io seen r = Ok r0 ->
        Forall2 (fun d q => sort_for x d /\ forall w, fm (w x) d <-> (forall u, In u seen -> ~ fm (w x) u) /\ fst q w) r0 (firsts (map (fun p => (matches x (snd p), b p)) (combine ns vs)))).
      { clear -V A. intros vs r Fv F. induction F as [|c v vs r Hv F IH]; intros seen r0 ns Ln Fs H; cbn [disjoint_sets] in H.
        - injection H as <-. destruct ns; constructor.
        - inv_bind H. inv_bind H. injection H as <-. inversion Fv as [|? ? Cc Fv']; subst. destruct ns as [|n ns]; [discriminate|]. cbn [combine map firsts].
          destruct (value_set x c v) as (Sv & Nv & Mv); auto. constructor.
          + cbn [fst snd]. destruct (minus_sort x seen v r1 Fs Sv E) as (S1 & M1). split; auto. intros w. rewrite M1, Mv. tauto.
          + apply Forall2_map_r. cbn [fst snd]. eapply Forall2_weaken; [|apply (IH Fv' (seen ++ [v]) r2 ns); auto].
            * intros d q _ _ (S1 & M1). split; auto. intros w. rewrite M1. cbn [fst]. rewrite <- Mv. split.
              -- intros (K1 & K2). split; [intros u Hu; apply K1; apply in_app_iff; auto|]. split; auto. apply K1. apply in_app_iff. simpl. auto.
              -- intros (K1 & K2 & K3). split; auto. intros u Hu. apply in_app_iff in Hu. destruct Hu as [Hu|[<-|[]]]; auto.
            * apply Forall_app. auto. }
      eapply Forall2_weaken; [|apply (Z vs r Fv E [] r0 ns); auto]. intros d q _ _ (S1 & M1). split; auto. intros w. rewrite M1. split; [tauto|]. intros K. split; [intros u []|auto]. }
    clear -K H Vx V A. revert evs H. induction K as [|d q r0 l (Sd & Kd) K IH]; intros evs H; inversion H as [|? o ? evs' Ho H']; subst; constructor; auto. inv_bind Ho. injection Ho as <-.
    destruct (in_event x d r Vx Sd E) as (K1 & K2 & K3). split; auto. split; auto. intros w _. rewrite K3. auto.
  Qed.
End Events.
