(** Sets and events of one variable: when the operations succeed. *)
From Coq Require Import List Bool String Reals Lra Lia ZArith.
From Verif Require Import Base Num Sets SetSpec SetIv SetProofs SetOr SetOps SetAlg SetBuilt
  Poly Trans TransSpec TransFacts PolyProofs InvProofs InvMain EvProofs
  Dnf DnfSpec DnfProofs DnfUnion PropDnf LeafProofs Logs Spe SpeSpec TotalSpec TotalEnds.
Import ListNotations.

Section Sets.
  Context {N : numsys} (io : iterorder N) (po : polyoracle N) (fuel : nat).
  Notation pset := (pset N).
  Notation tr := (tr N).

  Lemma and_open_total : forall (cuts points : string -> R -> Prop) z u (o : interval N), wf (PUnion u) -> Forall real_b u -> ends (cuts z) (points z) (PUnion u) -> wf_iv o -> clear_support cuts z o ->
    exists r, pand io (PB (BInt o)) (PUnion u) = Ok r.
  Proof.
    intros cuts points z u o W R Hen Wo Cl. apply wf_union_iff in W. destruct W as (P & L). cbn [pand]. rewrite and_ub_real by exact I. unfold and_ub_body.
    destruct (u_atoms_wf u P) as (Wa & Na). destruct (u_intervals_wf io u P) as (Wi & Di).
    destruct (and_pb_ok (u_atoms u) (BInt o) Wa Na Wo) as (ra & Ea & (A & B & C) & Nra).
    destruct (map_and_iv (BInt o) (u_intervals io u) Wo Wi Di) as (ivs & Ei & Nu & Wv & Lv & Dv & Rv & Mv).
    rewrite Ea. cbn [bind]. rewrite Ei. cbn [bind].
    assert (Iv : forall s, In s (filter (fun s => negb (is_empty s)) ivs) -> exists j, s = PB (BInt j)).
    { intros s Hs. apply filter_In in Hs. destruct Hs as (Hs & Es). apply mapM_Forall2 in Ei.
      assert (exists i, iv_ends (cuts z) i /\ and_bb (BInt i) (BInt o) = Ok s) as (i & Hei & Hi').
      { pose proof (u_intervals_ends io (cuts z) (points z) u Hen) as Fu. clear -Ei Hs Fu. induction Ei; [destruct Hs|]. inversion Fu; subst. destruct Hs as [<-|Hs]; eauto. }
      cbn [and_bb] in Hi'. destruct (iv_and_clear cuts z i o s Wo Cl Hei Hi') as [->|K]; [discriminate|exact K]. }
    set (ne := filter (fun s => negb (is_empty s)) ivs) in *.
    assert (Rra : real_set ra) by (apply C; right; exact I).
    assert (Fin : ra = PEmpty -> ne = [] \/ (exists x, ne = [x]) \/ exists r, Union_ io (ra :: ne) = Ok r).
    { intros ->. destruct ne as [|x [|y ne']] eqn:En; auto; [right; left; eauto|]. right. right. rewrite <- En in *. eexists. apply Union_ok; [cbn [flat_map opt_list app]; reflexivity|constructor; [exact I|exact Nu]| |rewrite Lv, En; simpl; lia].
      repeat split; auto.
      - replace (filter is_nom (flat_map opt_list ne)) with (@nil (bset N)); [simpl; lia|]. clear -Rv. induction Rv as [|b l Hb _ IH]; auto. simpl. destruct b; simpl in *; tauto.
      - replace (filter is_real (flat_map opt_list ne)) with (@nil (bset N)); [simpl; lia|]. clear -Iv. induction ne as [|s l IH]; auto. destruct (Iv s) as (j & ->); [now left|]. simpl. apply IH. intros; apply Iv; now right. }
    destruct (is_empty ra) eqn:Er.
    - destruct ra; try discriminate. destruct (Fin eq_refl) as [->|[(x & ->)|(r & Hr)]]; eauto. destruct ne as [|x [|y l]]; eauto.
    - destruct ne as [|x ne'] eqn:En; [eauto|]. rewrite <- En in *. destruct ra as [|b|]; [discriminate| |contradiction]. eexists. rewrite En. rewrite <- En.
      apply Union_ok; [reflexivity|constructor; [exact I|exact Nu]| |].
      + cbn [flat_map opt_list app]. assert (Ib : is_real b = true).
        { destruct (u_atoms_cases u P) as [E|(vs & E & _)]; rewrite E in Ea; cbn [and_pb] in Ea; [discriminate|]. cbn [and_bb] in Ea. injection Ea as Ea. unfold and_real_iv, freal_or_empty in Ea.
          destruct (dedup eeqb _); [discriminate|]. injection Ea as <-. reflexivity. }
        repeat split.
        * constructor; auto.
        * replace (filter is_nom (b :: flat_map opt_list ne)) with (@nil (bset N)); [simpl; lia|]. simpl. destruct b; try discriminate. simpl. clear -Rv. induction Rv as [|b l Hb _ IH]; auto. simpl. destruct b; simpl in *; tauto.
        * simpl. rewrite Ib. replace (filter is_real (flat_map opt_list ne)) with (@nil (bset N)); [simpl; lia|]. clear -Iv. induction ne as [|s l IH]; auto. destruct (Iv s) as (j & ->); [now left|]. simpl. apply IH. intros; apply Iv; now right.
        * constructor; auto. apply Forall_forall. intros c Hc v Hv Hv'. apply B in Hv. destruct Hv as (Hv & _).
          assert (ML : mem_list v (flat_map opt_list ne)) by (exists c; auto). apply Mv in ML. destruct ML as ((k & Hk & Hkv) & _).
          destruct (u_atoms u) as [|a|] eqn:Eu; [destruct Hv| |destruct (u_atoms_cases u P) as [K|(vs & K & _)]; congruence].
          exact (u_atoms_disjoint io u a k P Eu Hk v Hv Hkv).
      + cbn [flat_map opt_list app List.length]. rewrite Lv, En. simpl. lia.
  Qed.

  (** ** Literals *)
  Context (nominal : string -> bool) (cuts points : string -> R -> Prop).
  Definition fits (x : string) (k : ekind) (v : pset) : Prop :=
    if nominal x then v = PEmpty \/ nominal_set v else k <> KNom /\ real_set v /\ hasinf v = false /\ ends (cuts x) (points x) v.
  Definition cmp (x : string) (l : tr) : Prop := gev l /\ exists k v, l = EBasic k (TId x) v /\ fits x k v.

  Lemma fits_inffree : forall x k v, gev (EBasic k (TId x) v) -> fits x k v -> nominal x = false -> real_set v /\ inffree v.
  Proof.
    intros x k v G F En. unfold fits in F. rewrite En in F. destruct F as (Nk & R & Hi & _). split; auto. apply gev_wf in G. destruct G as (_ & W & G & _). apply hasinf_inffree; auto.
    destruct k; [right; right; exact G|destruct G as [->|(vs & ->)]; eauto|tauto].
  Qed.
  Lemma inffree_hasinf : forall v : pset, inffree v -> hasinf v = false.
  Proof.
    intros [|[vs f|vs|i]|u] H; auto. cbn [hasinf]. destruct (existsb is_inf vs) eqn:E; auto. apply existsb_exists in E. destruct E as (y & Hy & Ey).
    destruct (H (eR y)) as (r & Er); [cbn [mem bmem]; eauto|]. destruct y; discriminate.
  Qed.
  (** merging literals *)
  Lemma merge_cmp : forall op : pset -> pset -> res pset,
    (forall s t r, wf s -> wf t -> op s t = Ok r -> wf r /\ (real_set s -> real_set t -> real_set r) /\ (forall v, mem v r -> mem v s \/ mem v t)) ->
    (forall P Q s t r, ends P Q s -> ends P Q t -> op s t = Ok r -> ends P Q r) ->
    (forall s t r : pset, wf s -> wf t -> (s = PEmpty \/ nominal_set s) -> (t = PEmpty \/ nominal_set t) -> op s t = Ok r -> r = PEmpty \/ nominal_set r) ->
    forall x k v j u r y, cmp x (EBasic k (TId x) v) -> cmp x (EBasic j (TId x) u) -> op v u = Ok r -> event_of_set (TId x) r = Some y -> cmp x y.
  Proof.
    intros op Hop He Hn x k v j u r y (G1 & k1 & v1 & E1 & F1) (G2 & j1 & u1 & E2 & F2) Hr Hy. injection E1 as <- <-. injection E2 as <- <-.
    pose proof (gev_wf _ _ _ G1) as (_ & W1 & _). pose proof (gev_wf _ _ _ G2) as (_ & W2 & _).
    destruct (Hop v u r W1 W2 Hr) as (Wr & Rr & Mr). destruct (event_of_set_ok _ _ _ _ _ G1 Wr Hy) as (Gy & _). destruct (event_of_set_shape _ _ _ Hy) as (l & -> & Kl).
    split; auto. exists l, r. split; auto. unfold fits in *. destruct (nominal x) eqn:En; [eauto|].
    destruct (fits_inffree x k v G1) as (R1 & I1); auto; [unfold fits; now rewrite En|]. destruct (fits_inffree x j u G2) as (R2 & I2); auto; [unfold fits; now rewrite En|].
    assert (R : real_set r) by auto. split; [|split; [auto|split; [|apply (He _ _ v u); tauto]]].
    - intros ->. destruct Kl as (Kl & _). specialize (Kl eq_refl). destruct r as [|[]|]; simpl in *; tauto.
    - apply inffree_hasinf. intros z Hz. destruct (Mr _ Hz); auto.
  Qed.
  Lemma and_nominal : forall s t r : pset, (s = PEmpty \/ nominal_set s) -> (t = PEmpty \/ nominal_set t) -> pand io s t = Ok r -> r = PEmpty \/ nominal_set r.
  Proof.
    intros [|[vs f| |]|] [|[ws g| |]|] r [Hs|Hs] [Ht|Ht] H; try discriminate; try contradiction; cbn in H; injection H as <-; auto. unfold and_nom.
    assert (K : forall l, fnom_or_empty (N:=N) l = PEmpty \/ nominal_set (fnom_or_empty (N:=N) l)) by (intros l; unfold fnom_or_empty; destruct (dedup String.eqb l); simpl; auto).
    destruct (truthy f); [destruct (truthy g)|]; cbn [negb]; simpl; auto.
  Qed.
  Lemma or_nominal : forall s t : pset, wf s -> wf t -> (s = PEmpty \/ nominal_set s) -> (t = PEmpty \/ nominal_set t) -> exists r, por io s t = Ok r /\ (r = PEmpty \/ nominal_set r).
  Proof.
    intros [|[vs f| |]|] [|[ws g| |]|] W1 W2 [Hs|Hs] [Ht|Ht]; try discriminate; try contradiction; cbn; eauto.
    destruct (or_nom_ok (N:=N) vs f ws g W1 W2) as (vs' & f' & -> & _). eexists. split; [reflexivity|]. right. exact I.
  Qed.
  Lemma merge_and : forall x k v j u r y, cmp x (EBasic k (TId x) v) -> cmp x (EBasic j (TId x) u) -> pand io v u = Ok r -> event_of_set (TId x) r = Some y -> cmp x y.
  Proof.
    apply merge_cmp.
    - intros s t r W1 W2 H. destruct (pand_f io s t r W1 W2 H) as (A & _ & B & C). split; auto. split; [auto|]. intros v Hv. left. now apply C.
    - intros P Q s t r. apply pand_ends.
    - intros s t r _ _. apply and_nominal.
  Qed.
  Lemma merge_or : forall x k v j u r y, cmp x (EBasic k (TId x) v) -> cmp x (EBasic j (TId x) u) -> por io v u = Ok r -> event_of_set (TId x) r = Some y -> cmp x y.
  Proof.
    apply merge_cmp.
    - intros s t r W1 W2 H. destruct (por_f io s t r W1 W2 H) as (A & _ & B & C). split; auto.
    - intros P Q s t r. apply por_ends.
    - intros s t r W1 W2 Hs Ht H. destruct (or_nominal s t W1 W2 Hs Ht) as (r2 & E & K). congruence.
  Qed.
  Lemma compound_total : forall l : list tr, l <> [] -> Forall gev l -> compound_ok l = Ok tt.
  Proof.
    intros l Ne F. unfold compound_ok. replace (forallb is_event l) with true; [destruct l; tauto|]. symmetry. apply forallb_forall. rewrite Forall_forall in F. intros e He. apply (F e He).
  Qed.
  Lemma EventAnd_total : forall l : list tr, l <> [] -> Forall gev l -> EventAnd l = Ok (EAnd l).
  Proof. intros l Ne F. unfold EventAnd. now rewrite compound_total. Qed.
  Lemma EventOr_total : forall l : list tr, l <> [] -> Forall gev l -> EventOr l = Ok (EOr l).
  Proof. intros l Ne F. unfold EventOr. now rewrite compound_total. Qed.
  Lemma or_cmp_total : forall x a b, cmp x a -> cmp x b -> exists c, ev_or io a b = Ok c /\ (cmp x c \/ c = EOr [a; b]).
  Proof.
    intros x a b Ca Cb. pose proof Ca as (Ga & k & v & -> & F1). pose proof Cb as (Gb & j & u & -> & F2). cbn [ev_or teqb]. rewrite String.eqb_refl.
    pose proof (gev_wf _ _ _ Ga) as (_ & W1 & _). pose proof (gev_wf _ _ _ Gb) as (_ & W2 & _).
    assert (exists r, por io v u = Ok r) as (r & Hr).
    { unfold fits in F1, F2. destruct (nominal x); [destruct (or_nominal v u W1 W2 F1 F2) as (r & E & _); eauto|]. apply por_total; tauto. }
    rewrite Hr. cbn [bind]. destruct (event_of_set (TId x) r) as [y|] eqn:Ey.
    - eexists. split; [reflexivity|]. left. exact (merge_or x k v j u r y Ca Cb Hr Ey).
    - rewrite EventOr_total; [|discriminate|now auto using Forall_cons]. eauto.
  Qed.

  (** ** Events *)
  Definition cmps (e : tr) : Prop := gev e /\ Forall (fun l => exists x, cmp x l) (lits e).
  Lemma direct_cmps : forall e, direct nominal cuts points e -> cmps e.
  Proof.
    intros e (G & F). split; auto. pose proof (gev_lits _ G) as Gl. rewrite Forall_forall in *. intros l Hl. destruct (F l Hl) as (k & x & v & -> & K). exists x. split; [now apply Gl|]. exists k, v. auto.
  Qed.
  Lemma cmps_on_vars : forall e, cmps e -> on_vars e.
  Proof. intros e (_ & F). eapply Forall_impl; [|exact F]. intros l (x & _ & k & v & -> & _). exists k, x, v. reflexivity. Qed.
  Lemma and_total : forall a b, cmps a -> cmps b -> exists c, ev_and io a b = Ok c /\ cmps c.
  Proof.
    intros a b (Ga & Fa) (Gb & Fb).
    assert (T : exists c, ev_and io a b = Ok c).
    { destruct a as [| | | | | | | |k s v|l|l]; try (destruct Ga as (_ & Ga); discriminate Ga); destruct b as [| | | | | | | |j t u|m|m]; try (destruct Gb as (_ & Gb); discriminate Gb); cbn [ev_and].
      - cbn [lits] in Fa, Fb. inversion Fa as [|? ? (x & _ & k1 & v1 & E1 & F1) _]; subst. inversion Fb as [|? ? (y & _ & k2 & v2 & E2 & F2) _]; subst. injection E1 as -> -> ->. injection E2 as -> -> ->.
        destruct (teqb (TId y) (TId x)) eqn:Et; [|rewrite EventAnd_total; [eauto|discriminate|auto using Forall_cons]].
        cbn in Et. apply String.eqb_eq in Et. subst y. destruct (and_lit_total io x (EBasic k1 (TId x) v1) (EBasic k2 (TId x) v2)) as (c & Hc); auto; try (unfold lit_on; eauto).
        cbn [ev_and teqb] in Hc. rewrite String.eqb_refl in Hc. eauto.
      - rewrite EventAnd_total; [eauto|discriminate|auto using Forall_cons].
      - rewrite EventAnd_total; [eauto|discriminate|]. constructor; auto. now apply gev_and in Gb.
      - rewrite EventAnd_total; [eauto|discriminate|auto using Forall_cons].
      - rewrite EventAnd_total; [eauto|discriminate|auto using Forall_cons].
      - rewrite EventAnd_total; [eauto|discriminate|]. constructor; auto. now apply gev_and in Gb.
      - apply gev_and in Ga. rewrite EventAnd_total; [eauto|destruct l; discriminate|]. apply Forall_app. split; [tauto|auto using Forall_cons].
      - apply gev_and in Ga. rewrite EventAnd_total; [eauto|destruct l; discriminate|]. apply Forall_app. split; [tauto|auto using Forall_cons].
      - apply gev_and in Ga. apply gev_and in Gb. rewrite EventAnd_total; [eauto|destruct l; [tauto|discriminate]|]. apply Forall_app. tauto. }
    destruct T as (c & Hc). exists c. split; auto. split; [now apply (ev_and_ok io a b c)|].
    apply (ev_and_lits io _ a b c Hc); auto. intros k s v j t u r y (x1 & C1) (x2 & C2) Et Hr Hy. exists x1. pose proof C1 as (_ & k1 & v1 & E1 & _). pose proof C2 as (_ & k2 & v2 & E2 & _).
    injection E1 as <- -> <-. injection E2 as <- -> <-. cbn in Et. apply String.eqb_eq in Et. subst x2. exact (merge_and x1 k v j u r y C1 C2 Hr Hy).
  Qed.
  Lemma or_total : forall a b, cmps a -> cmps b -> exists c, ev_or io a b = Ok c /\ cmps c.
  Proof.
    intros a b (Ga & Fa) (Gb & Fb).
    assert (T : exists c, ev_or io a b = Ok c).
    { destruct a as [| | | | | | | |k s v|l|l]; try (destruct Ga as (_ & Ga); discriminate Ga); destruct b as [| | | | | | | |j t u|m|m]; try (destruct Gb as (_ & Gb); discriminate Gb); cbn [ev_or].
      - cbn [lits] in Fa, Fb. inversion Fa as [|? ? (x & Cx) _]; subst. inversion Fb as [|? ? (y & Cy) _]; subst.
        destruct (teqb t s) eqn:Et; [|rewrite EventOr_total; [eauto|discriminate|auto using Forall_cons]].
        pose proof Cx as (_ & k1 & v1 & E1 & F1). pose proof Cy as (_ & k2 & v2 & E2 & F2). injection E1 as -> -> ->. injection E2 as -> -> ->.
        pose proof Et as Et'. cbn in Et. apply String.eqb_eq in Et. subst y. destruct (or_cmp_total x _ _ Cx Cy) as (c & Hc & _).
        cbn [ev_or] in Hc. rewrite Et' in Hc. eauto.
      - rewrite EventOr_total; [eauto|discriminate|]. constructor; auto. now apply gev_or in Gb.
      - rewrite EventOr_total; [eauto|discriminate|auto using Forall_cons].
      - apply gev_or in Ga. rewrite EventOr_total; [eauto|destruct l; discriminate|]. apply Forall_app. split; [tauto|auto using Forall_cons].
      - apply gev_or in Ga. apply gev_or in Gb. rewrite EventOr_total; [eauto|destruct l; [tauto|discriminate]|]. apply Forall_app. tauto.
      - apply gev_or in Ga. rewrite EventOr_total; [eauto|destruct l; discriminate|]. apply Forall_app. split; [tauto|auto using Forall_cons].
      - rewrite EventOr_total; [eauto|discriminate|auto using Forall_cons].
      - rewrite EventOr_total; [eauto|discriminate|]. constructor; auto. now apply gev_or in Gb.
      - rewrite EventOr_total; [eauto|discriminate|auto using Forall_cons]. }
    destruct T as (c & Hc). exists c. split; auto. split; [now apply (ev_or_ok io a b c)|].
    apply (ev_or_lits io _ a b c Hc); auto. intros k s v j t u r y (x1 & C1) (x2 & C2) Et Hr Hy. exists x1. pose proof C1 as (_ & k1 & v1 & E1 & _). pose proof C2 as (_ & k2 & v2 & E2 & _).
    injection E1 as <- -> <-. injection E2 as <- -> <-. cbn in Et. apply String.eqb_eq in Et. subst x2. exact (merge_or x1 k v j u r y C1 C2 Hr Hy).
  Qed.
  Lemma reduce_total : forall (op : tr -> tr -> res tr), (forall a b, cmps a -> cmps b -> exists c, op a b = Ok c /\ cmps c) ->
    forall l, l <> [] -> Forall cmps l -> exists c, reduceM op l = Ok c /\ cmps c.
  Proof.
    intros op Hop [|a l] Ne F; [tauto|]. clear Ne. inversion F as [|? ? Ca Fl]; subst. cbn [reduceM]. clear F. revert a Ca. induction Fl as [|b l Cb Fl IH]; intros a Ca; cbn [foldM]; [eauto|].
    destruct (Hop a b Ca Cb) as (c & -> & Cc). cbn [bind]. auto.
  Qed.
End Sets.
