(** The numbers that a union of sets lists one by one are isolated: a number next to an interval
    is taken into the interval. *)
From Coq Require Import List Bool String Reals Lra Lia ZArith Classical Permutation.
From Verif Require Import Base Num Sets SetSpec SetIv SetProofs SetOr SetOps SetAlg SetBuilt
  Poly Trans TransSpec TransFacts PolyProofs InvProofs InvMain EvProofs ArithProofs
  Dnf DnfSpec DnfProofs DnfUnion PropDnf LeafProofs LeafEvents Logs Spe SpeSpec TotalSpec TotalEnds TotalSets TotalSolve.
Import ListNotations.
Local Open Scope R_scope.

Section Tight.
  Context {N : numsys} (io : iterorder N).
  Notation pset := (pset N).
  Notation enum := (ext (num N)).

  (** the numbers that a set lists one by one have no other members near them *)
  Definition tight (s : pset) : Prop := forall vs y r, In (BReal vs) (parts s) -> In y vs -> eR y = Fin r -> alone r (fun q => mem (RNum (Fin q)) s).
  Lemma alone_sub : forall r (P Q : R -> Prop), (forall q, Q q -> P q) -> alone r P -> alone r Q.
  Proof. intros r P Q H (e & He & K). exists e. split; auto. intros q A B C. apply (K q); auto. Qed.
  Lemma alone_or : forall r (P Q : R -> Prop), alone r P -> alone r Q -> alone r (fun q => P q \/ Q q).
  Proof.
    intros r P Q (e & He & K) (f & Hf & L). exists (Rmin e f). split; [now apply Rmin_pos|]. intros q A B [C|C].
    - apply (K q); auto. pose proof (Rmin_l e f). lra.
    - apply (L q); auto. pose proof (Rmin_r e f). lra.
  Qed.
  Lemma alone_list : forall A r (P : A -> R -> Prop) (l : list A), (forall a, In a l -> alone r (P a)) -> alone r (fun q => exists a, In a l /\ P a q).
  Proof.
    intros A r P l. induction l as [|a l IH]; intros H.
    - exists 1. split; [lra|]. intros q _ _ (a & [] & _).
    - apply (alone_sub r (fun q => P a q \/ exists a, In a l /\ P a q)); [intros q (b & [<-|Hb] & K); eauto|]. apply alone_or; [apply H; now left|]. apply IH. intros b Hb. apply H. now right.
  Qed.
  Lemma alone_point : forall r p, alone r (fun q => q = p).
  Proof.
    intros r p. destruct (Req_dec r p) as [->|Ne].
    - exists 1. split; [lra|]. auto.
    - exists (Rabs (p - r)). split; [apply Rabs_pos_lt; lra|]. intros q A _ ->. lra.
  Qed.
  Lemma alone_finite : forall r (vs : list enum), alone r (fun q => bmem (RNum (Fin q)) (BReal vs)).
  Proof.
    intros r vs. apply (alone_sub r (fun q => exists y, In y vs /\ eR y = Fin q)); [auto|]. apply alone_list. intros y _. destruct y as [|c|].
    - exists 1. split; [lra|]. intros q _ _ K. discriminate K.
    - apply (alone_sub r (fun q => q = toR c)); [intros q K; cbn in K; congruence|apply alone_point].
    - exists 1. split; [lra|]. intros q _ _ K. discriminate K.
  Qed.

  Definition far (r : R) (i : interval N) : Prop := ~ (ele (eR (iv_a i)) (Fin r) /\ ele (Fin r) (eR (iv_b i))).
  Lemma far_alone : forall r i, far r i -> alone r (fun q => iv_mem (Fin q) i).
  Proof.
    intros r i F. unfold far in F. destruct (classic (ele (eR (iv_a i)) (Fin r))) as [Ka|Ka].
    - assert (Kb : ~ ele (Fin r) (eR (iv_b i))) by tauto. destruct (eR (iv_b i)) as [|b|] eqn:E.
      + exists 1. split; [lra|]. intros q _ _ (_ & M). rewrite E in M. destruct (iv_ro i); [exact M|destruct M as [M|M]; [exact M|discriminate]].
      + assert (b < r). { destruct (Rlt_le_dec b r); auto. exfalso. apply Kb. destruct (Req_dec r b) as [->|]; [now right|left; cbn; lra]. }
        exists (r - b). split; [lra|]. intros q A _ (_ & M). rewrite E in M. assert (q <= b) by (destruct (iv_ro i); [cbn in M; lra|destruct M as [M|M]; [cbn in M; lra|injection M; lra]]). apply Rabs_def2 in A. lra.
      + exfalso. apply Kb. left. exact Logic.I.
    - destruct (eR (iv_a i)) as [|a|] eqn:E.
      + exfalso. apply Ka. left. exact Logic.I.
      + assert (r < a). { destruct (Rlt_le_dec r a); auto. exfalso. apply Ka. destruct (Req_dec r a) as [->|]; [now right|left; cbn; lra]. }
        exists (a - r). split; [lra|]. intros q A _ (M & _). rewrite E in M. assert (a <= q) by (destruct (iv_lo i); [cbn in M; lra|destruct M as [M|M]; [cbn in M; lra|injection M; lra]]). apply Rabs_def2 in A. lra.
      + exists 1. split; [lra|]. intros q _ _ (M & _). rewrite E in M. destruct (iv_lo i); [exact M|destruct M as [M|M]; [exact M|discriminate]].
  Qed.

  Lemma eleb_ele : forall x y : enum, ele (eR x) (eR y) -> eleb x y = true.
  Proof. intros x y [H|H]; unfold eleb; apply orb_true_intro; [left; now apply eltb_elt|right; now apply eeqb_eR]. Qed.
  Lemma Interval_lo : forall a b lo ro (i : interval N), Interval_ a b lo ro = Ok i -> iv_a i = a /\ iv_b i = b /\ (iv_lo i = true -> lo = true \/ a = NInf) /\ (iv_ro i = true -> ro = true \/ b = PInf).
  Proof.
    intros a b lo ro i H. unfold Interval_ in H. inv_bind H. injection H as <-. cbn. split; auto. split; auto. split; intros K; apply orb_prop in K; destruct K as [K|K]; auto; right; [destruct a|destruct b]; try discriminate K; reflexivity.
  Qed.
  (** what is left of the finite set is away from the interval *)
  Lemma or_real_iv_far : forall vs i r, wf_iv i -> or_real_iv io vs i = Ok r ->
    exists j, (r = PB (BInt j) \/ exists ws, r = PUnion [BReal ws; BInt j] /\ forall y q, In y ws -> eR y = Fin q -> far q j).
  Proof.
    intros vs i r Wi H. unfold or_real_iv in H. inv_bind H. destruct r0 as (vs1, i1). inv_bind H. destruct r0 as (vs2, i2).
    assert (H1 : iv_a i1 = iv_a i /\ iv_b i1 = iv_b i /\ (forall y, In y vs1 -> In y vs) /\ forall y q, In y vs1 -> eR y = Fin q -> eR (iv_a i) = Fin q -> iv_lo i1 = false).
    { destruct (inb eeqb (iv_a i) vs && iv_lo i) eqn:C.
      - inv_bind E. injection E as <- <-. apply Interval_lo in E1. destruct E1 as (A & B & L & _). split; auto. split; auto. split; [intros y Hy; apply filter_In in Hy; tauto|].
        intros y q Hy K1 K2. apply filter_In in Hy. destruct Hy as (_ & Hy). apply negb_true_iff in Hy. assert (eeqb (iv_a i) y = true) by (apply eeqb_eR; congruence). congruence.
      - injection E as <- <-. split; auto. split; auto. split; auto. intros y q Hy K1 K2. destruct (iv_lo i) eqn:L; auto. rewrite andb_true_r in C. assert (inb eeqb (iv_a i) vs = true) by (apply inb_eeqb; rewrite K2, <- K1; now apply in_map). congruence. }
    destruct H1 as (A1 & B1 & S1 & L1).
    assert (H2 : iv_a i2 = iv_a i /\ iv_b i2 = iv_b i /\ (iv_lo i2 = true -> iv_lo i1 = true \/ iv_a i = NInf) /\ (forall y, In y vs2 -> In y vs1) /\ forall y q, In y vs2 -> eR y = Fin q -> eR (iv_b i) = Fin q -> iv_ro i2 = false).
    { destruct (inb eeqb (iv_b i1) vs1 && iv_ro i1) eqn:C.
      - inv_bind E0. injection E0 as <- <-. apply Interval_lo in E1. destruct E1 as (A & B & L & _). rewrite A1 in *. rewrite B1 in *. split; auto. split; auto. split; auto. split; [intros y Hy; apply filter_In in Hy; tauto|].
        intros y q Hy K1 K2. apply filter_In in Hy. destruct Hy as (_ & Hy). apply negb_true_iff in Hy. assert (eeqb (iv_b i) y = true) by (apply eeqb_eR; congruence). congruence.
      - injection E0 as <- <-. split; auto. split; auto. split; auto. split; auto. intros y q Hy K1 K2. destruct (iv_ro i1) eqn:L; auto. rewrite andb_true_r in C. assert (inb eeqb (iv_b i1) vs1 = true) by (apply inb_eeqb; rewrite B1, K2, <- K1; now apply in_map). congruence. }
    destruct H2 as (A2 & B2 & L2 & S2 & R2). exists i2.
    assert (Fa : forall y q, In y (filter (fun v => negb (iv_contains v i2)) vs2) -> eR y = Fin q -> far q i2).
    { intros y q Hy Eq (Ka & Kb). apply filter_In in Hy. destruct Hy as (Hy & Nc). apply negb_true_iff in Nc. assert (iv_contains y i2 = true); [|congruence].
      unfold iv_contains. rewrite A2, B2 in *. apply andb_true_intro. split.
      - destruct (iv_lo i2) eqn:Lo; [apply eltb_elt|apply eleb_ele]; rewrite Eq; auto. destruct Ka as [Ka|Ka]; auto. exfalso. destruct (L2 eq_refl) as [K|K].
        + rewrite (L1 y q) in K; auto. discriminate.
        + rewrite K in Ka. discriminate.
      - destruct (iv_ro i2) eqn:Lo; [apply eltb_elt|apply eleb_ele]; rewrite Eq; auto. destruct Kb as [Kb|Kb]; auto. exfalso. enough (true = false) by discriminate. apply (R2 y q); auto. }
    destruct (filter (fun v => negb (iv_contains v i2)) vs2) as [|y0 l0] eqn:Ef; [injection H as <-; now left|]. right. rewrite <- Ef in *. inv_bind H. unfold FiniteReal in E1. inv_bind E1. injection E1 as <-. apply Union_inv in H. destruct H as (-> & _). cbn [flat_map opt_list app].
    eexists. split; [reflexivity|]. intros y q Hy. apply Fa. now apply dedup_In in Hy.
  Qed.
  Lemma absorb_far : forall l f r, Forall wf_iv l -> absorb io l f = Ok r -> (forall y, In y (fin_vals (snd r)) -> In y (fin_vals f)) /\ forall y q j, In y (fin_vals (snd r)) -> eR y = Fin q -> In j (fst r) -> far q j.
  Proof.
    induction l as [|i l IH]; intros f r F H; cbn [absorb] in H; [injection H as <-; cbn; tauto|]. inversion F as [|? ? Wi Fl]; subst. inv_bind H.
    assert (Hu : exists j, r0 = PB (BInt j) \/ exists ws, r0 = PUnion [BReal ws; BInt j] /\ (forall y, In y ws -> In y (fin_vals f)) /\ forall y q, In y ws -> eR y = Fin q -> far q j).
    { unfold iv_or_finite in E. destruct f as [vs|]; [|injection E as <-; eauto]. destruct (or_real_iv_far vs i r0 Wi E) as (j & [->|(ws & -> & K)]); exists j; auto. right. exists ws. split; auto. split; auto.
      unfold or_real_iv in E. inv_bind E. destruct r0 as (vs1, i1). inv_bind E. destruct r0 as (vs2, i2). destruct (filter _ vs2) eqn:Ef; [discriminate|]. rewrite <- Ef in *. clear Ef. inv_bind E. unfold FiniteReal in E2. inv_bind E2. injection E2 as <-. apply Union_inv in E. destruct E as (E & _). injection E as -> _.
      intros y Hy. apply dedup_In in Hy. apply filter_In in Hy. destruct Hy as (Hy & _). cbn [fin_vals].
      assert (Hv1 : In y vs1). { destruct (inb eeqb (iv_b i1) vs1 && iv_ro i1); [inv_bind E1; injection E1 as <- _; apply filter_In in Hy; tauto|injection E1 as <- _; auto]. }
      destruct (inb eeqb (iv_a i) vs && iv_lo i); [inv_bind E0; injection E0 as <- _; apply filter_In in Hv1; tauto|injection E0 as <- _; auto]. }
    destruct Hu as (j & [->|(ws & -> & Sw & Fw)]).
    - inv_bind H. injection H as <-. cbn [fst snd]. destruct (IH None r0 Fl E0) as (A & B). split; [intros y Hy; destruct (A y Hy)|]. intros y q k Hy. destruct (A y Hy).
    - cbn [u_atoms find is_real] in H. cbn [find] in H. destruct (u_intervals io [BReal ws; BInt j]) as [|k [|]] eqn:Eu; try discriminate.
      assert (k = j). { assert (K : In k (u_intervals io [BReal ws; BInt j])) by (rewrite Eu; now left). unfold u_intervals in K. cbn [flat_map get_iv app] in K. pose proof (it_iv_perm io (dedup iv_eqb [j])) as P. apply (Permutation_in _ (Permutation_sym P)) in K. apply dedup_In in K. destruct K as [K|[]]; auto. }
      subst k. inv_bind H. injection H as <-. cbn [fst snd]. destruct (IH (Some ws) r0 Fl E0) as (A & B). cbn [fin_vals] in A. split; [auto|]. intros y q k Hy Eq [<-|Hk]; [apply (Fw y); auto|apply (B y q k); auto].
  Qed.

  Definition tight_list (u : list (bset N)) : Prop := forall vs y r, In (BReal vs) u -> In y vs -> eR y = Fin r -> alone r (fun q => exists b, In b u /\ bmem (RNum (Fin q)) b).
  Lemma tight_one : forall b, tight (PB b).
  Proof. intros b vs y r [->|[]] Hy Eq. apply alone_finite. Qed.
  Lemma tight_far : forall (is : list (interval N)) ws, (forall y q i, In y ws -> eR y = Fin q -> In i is -> far q i) -> tight_list (map BInt is ++ [BReal ws]).
  Proof.
    intros is ws H vs y r Hv Hy Eq. apply in_app_iff in Hv. destruct Hv as [Hv|[Hv|[]]]; [apply in_map_iff in Hv; destruct Hv as (? & ? & _); discriminate|]. injection Hv as <-.
    apply alone_list. intros b Hb. apply in_app_iff in Hb. destruct Hb as [Hb|[<-|[]]]; [|apply alone_finite]. apply in_map_iff in Hb. destruct Hb as (i & <- & Hi). cbn [bmem]. apply far_alone. now apply (H y r i).
  Qed.
  Lemma tight_incl : forall u w, tight_list u -> (forall vs, In (BReal vs) w -> In (BReal vs) u) -> (forall q, (exists b, In b w /\ bmem (RNum (Fin q)) b) -> exists b, In b u /\ bmem (RNum (Fin q)) b) -> tight_list w.
  Proof. intros u w T A B vs y r Hv Hy Eq. apply (alone_sub r (fun q => exists b, In b u /\ bmem (RNum (Fin q)) b)); [exact B|]. apply (T vs y); auto. Qed.
  Lemma uif_tight : forall l f r, Forall wf_iv l -> fin_ok f -> union_intervals_finite io l f = Ok r -> tight_list r.
  Proof.
    intros l f r F Fo H. unfold union_intervals_finite in H. destruct f as [vs|]; inv_bind H.
    - inv_bind H. injection H as <-. destruct (absorb_ok io l (Some vs) F Fo) as (l' & f' & Ea & Wl' & _). rewrite E in Ea. injection Ea as ->. cbn [fst snd] in *.
      destruct (absorb_far l (Some vs) (l', f') F E) as (_ & Fa). cbn [fst snd] in Fa.
      destruct l' as [|i0 l0] eqn:El; [discriminate E0|]. rewrite <- El in *. destruct (union_intervals_ok io l') as (bs & Eb & _ & _ & _ & Mb); [subst; discriminate|auto|]. rewrite E0 in Eb. injection Eb as ->.
      destruct f' as [ws|].
      + apply (tight_incl (map BInt l' ++ [BReal ws])).
        * apply tight_far. intros y q i Hy Eq Hi. apply (Fa y q i); auto.
        * intros ws' Hw. apply in_app_iff in Hw. apply in_app_iff. destruct Hw as [Hw|Hw]; auto. apply in_map_iff in Hw. destruct Hw as (? & ? & _). discriminate.
        * intros q (b & Hb & Mq). apply in_app_iff in Hb. destruct Hb as [Hb|Hb]; [|exists b; split; auto; apply in_app_iff; now right]. apply in_map_iff in Hb. destruct Hb as (i & <- & Hi). destruct (proj1 (Mb (Fin q))) as (j & Hj & Mj); [exists i; auto|]. exists (BInt j). split; auto. apply in_app_iff. left. now apply in_map.
      + rewrite app_nil_r. intros ws y q Hw. apply in_map_iff in Hw. destruct Hw as (? & ? & _). discriminate.
    - injection H as <-. intros ws y q Hw. apply in_map_iff in Hw. destruct Hw as (? & ? & _). discriminate.
  Qed.
  Lemma finish_tight : forall u bs r, tight_list bs -> u_nominals u = PEmpty -> or_ub_finish io u bs = Ok r -> tight r.
  Proof.
    intros u bs r T Nu H. unfold or_ub_finish in H. inv_bind H. rewrite Nu in H.
    assert (K : Union_ io (PEmpty :: map PB bs) = Ok r -> tight r).
    { intros Eu. apply Union_inv in Eu. destruct Eu as (-> & _). cbn [flat_map opt_list app]. replace (flat_map opt_list (map PB bs)) with bs by (clear; induction bs; simpl; congruence). exact T. }
    destruct bs as [|b [|]]; auto. injection H as <-. apply tight_one.
  Qed.
  Lemma real_noms : forall u : list (bset N), Forall real_b u -> u_nominals u = PEmpty.
  Proof. intros u F. unfold u_nominals. destruct (find is_nom u) eqn:E; auto. apply find_some in E. destruct E as (E & K). rewrite Forall_forall in F. apply F in E. destruct b; [contradiction|discriminate|discriminate]. Qed.
  Lemma por_b_tight : forall s b r, wf s -> wf_b b -> real_set s -> real_b b -> por_b io s b = Ok r -> tight r.
  Proof.
    intros [|c|u] b r Ws Wb Rs Rb H; cbn [por_b] in H; [injection H as <-; apply tight_one| |].
    - assert (Fc : forall vs i q, wf_iv i -> or_real_iv io vs i = Ok q -> tight q).
      { intros vs i q Wi E. destruct (or_real_iv_far vs i q Wi E) as (j & [->|(ws & -> & K)]); [apply tight_one|]. apply (tight_incl (map BInt [j] ++ [BReal ws])).
        - apply tight_far. intros y p k Hy Eq [<-|[]]. now apply (K y).
        - intros vs' [Hv|[Hv|[]]]; [right; now left|discriminate].
        - intros p (d & [<-|[<-|[]]] & Hd); eexists; (split; [|exact Hd]); cbn; auto. }
      destruct c as [|vs|i], b as [|ws|j]; try contradiction; cbn [or_bb] in H.
      + unfold FiniteReal in H. inv_bind H. injection H as <-. apply tight_one.
      + eapply Fc; [|exact H]. exact Wb.
      + eapply Fc; [|exact H]. exact Ws.
      + unfold iv_or in H. destruct (iv_eqb i j); [injection H as <-; apply tight_one|]. inv_bind H. destruct (_ && _); [apply Union_inv in H; destruct H as (-> & _); intros ws y q [E'|[E'|[]]]; discriminate|].
        destruct (sort _ _) as [|? [|? [|? [|? [|]]]]]; try discriminate. inv_bind H. injection H as <-. apply tight_one.
    - pose proof Ws as Ws0. apply wf_union_iff in Ws0. destruct Ws0 as (P & L). destruct (u_intervals_wf io u P) as (WI & _).
      assert (Nu : u_nominals u = PEmpty) by (now apply real_noms).
      assert (Fo : fin_ok (as_finite (u_atoms u))). { destruct (u_atoms_cases u P) as [->|(ws & -> & Wn)]; simpl; auto. }
      destruct b as [|ws|j]; try contradiction; cbn [or_ub] in H; inv_bind H.
      + inv_bind H. eapply finish_tight; [|exact Nu|exact H]. eapply uif_tight; [| |exact E0]; auto.
        destruct (u_atoms_cases u P) as [Ea|(vs & Ea & Wn)]; rewrite Ea in E; cbn [or_pb or_bb] in E; [injection E as <-; exact Wb|]. unfold FiniteReal in E. inv_bind E. injection E as <-. cbn [as_finite fin_ok]. split; [apply dedup_num_NoDup|].
        intros K. destruct Wb as (_ & Nw). destruct ws as [|y ws]; [tauto|]. pose proof (dedup_num_In (vs ++ y :: ws) (eR y)) as Q. rewrite K in Q. cbn [map] in Q. apply Q. apply in_map. apply in_app_iff. right. now left.
      + eapply finish_tight; [|exact Nu|exact H]. eapply uif_tight; [| |exact E]; auto. apply Forall_app. split; auto.
  Qed.
  Lemma por_tight : forall s t r, wf s -> wf t -> real_set s -> real_set t -> not_union t -> tight s -> tight t -> por io s t = Ok r -> tight r.
  Proof.
    intros s t r Ws Wt Rs Rt Nt Ts Tt H. destruct t as [|c|w]; [|apply (por_b_tight s c r); auto; destruct s; exact H|contradiction].
    destruct s; cbn [por] in H; injection H as <-; auto.
  Qed.
  Lemma reduce_tight : forall l r, Forall (fun v => wf v /\ real_set v /\ not_union v) l -> reduceM (por io) l = Ok r -> tight r.
  Proof.
    intros [|a l] r F H; [discriminate|]. cbn [reduceM] in H. inversion F as [|? ? (Wa & Ra & Na) Fl]; subst. clear F.
    assert (Ta : tight a) by (destruct a; [intros ? ? ? []|apply tight_one|contradiction]). clear Na. revert a Wa Ra Ta H. induction Fl as [|b l (Wb & Rb & Nb) Fl IH]; intros a Wa Ra Ta H; cbn [foldM] in H; [injection H as <-; auto|].
    inv_bind H. destruct (por_f io a b r0 Wa Wb E) as (Wr & _ & Rr & _). apply (IH r0); auto. apply (por_tight a b); auto. destruct b; [intros ? ? ? []|apply tight_one|contradiction].
  Qed.
End Tight.

Section Solved.
  Context {N : numsys} (io : iterorder N) (po : polyoracle N) (fuel : nat) (nominal : string -> bool) (cuts points : string -> R -> Prop).
  Notation pset := (pset N).
  Notation tr := (tr N).
  Notation cmp := (cmp (N:=N) nominal cuts points).
  Notation flat := (flat (N:=N) nominal cuts points).
  (** the values that a leaf solves for *)
  Lemma solve_tight : forall x e v, (1 <= fuel)%nat -> flat x e -> nominal x = false -> solve io po fuel e = Ok v -> tight v.
  Proof.
    intros x e v Hf F En H. pose proof (flat_symbols nominal cuts points x e F) as Sy. destruct F as [C|(l & -> & Ne & Fl)].
    - pose proof C as (G & k & u & -> & _). cbn in H. injection H as <-. destruct u as [|b|u]; [intros ? ? ? []|apply tight_one|now apply gev_not_union in G].
    - assert (Hs : exists rs, mapM (fun e => invert io po fuel e (PB (BReal [bit true]))) l = Ok rs /\ make_union io rs = Ok v).
      { unfold solve in H. cbn [id_values] in H. rewrite Sy in H. cbn [List.length Nat.ltb Nat.leb] in H. cbn [invert] in H. destruct fuel as [|f]; [lia|]. cbn [dispatch range bind] in H. rewrite pand_one in H. cbn [bind] in H. inv_bind H. eauto. }
      destruct Hs as (rs & E & Hu). apply (reduce_tight io rs); [|exact Hu]. apply mapM_Forall2 in E. clear H Ne Sy Hu. induction E as [|a r l rs Ha E IH]; [constructor|]. inversion Fl as [|? ? Ca Fl']; subst. constructor; auto.
      destruct (invert_cmp io po fuel nominal cuts points x a Hf Ca) as (r' & Er & _ & Kr). rewrite Ha in Er. injection Er as ->. destruct (Kr En) as (_ & Nu).
      assert (Fa : flat x a) by (now left). destruct (invert_real io po fuel x a (flat_gev nominal cuts points x a Fa) (flat_only nominal cuts points x a Fa) (flat_num nominal cuts points x a Fa En) (PB (BReal [bit true])) r'); auto. apply BReal1.
  Qed.
  (** within a support that is clear of the cuts no new isolated numbers arise *)
  Lemma clear_values : forall x u (o : interval N) vals, wf (PUnion u) -> Forall real_b u -> ends (cuts x) (points x) (PUnion u) -> wf_iv o -> clear_support cuts x o -> pand io (PB (BInt o)) (PUnion u) = Ok vals ->
    not_union vals \/ forall vs y, In (BReal vs) (parts vals) -> In y vs -> exists ws, In (BReal ws) u /\ In y ws.
  Proof.
    intros x u o vals W R Hen Wo Cl H. apply wf_union_iff in W. destruct W as (P & L). cbn [pand] in H. rewrite and_ub_real in H by exact I. unfold and_ub_body in H. inv_bind H. inv_bind H.
    assert (Ha : r = PEmpty \/ exists vs, r = PB (BReal vs) /\ forall y, In y vs -> exists ws, In (BReal ws) u /\ In y ws).
    { unfold u_atoms in E. destruct (find is_real u) as [b|] eqn:Ef; cbn [and_pb] in E; [|injection E as <-; now left]. apply find_some in Ef. destruct Ef as (Hb & Ib). destruct b as [|ws|]; try discriminate Ib. cbn [and_bb] in E. injection E as <-.
      unfold and_real_iv, freal_or_empty. pose proof (dedup_In eeqb (filter (fun v => iv_contains v o) ws)) as K. destruct (dedup eeqb _) as [|y0 l0]; [now left|]. right. eexists. split; [reflexivity|]. intros y Hy. exists ws. split; auto. apply K in Hy. apply filter_In in Hy. tauto. }
    assert (Iv : forall s, In s (filter (fun s => negb (is_empty s)) r0) -> exists j, s = PB (BInt j)).
    { intros s Hs. apply filter_In in Hs. destruct Hs as (Hs & Es). apply mapM_Forall2 in E0.
      assert (exists i, iv_ends (cuts x) i /\ and_bb (BInt i) (BInt o) = Ok s) as (i & Hei & Hi').
      { pose proof (u_intervals_ends io (cuts x) (points x) u Hen) as Fu. clear -E0 Hs Fu. induction E0; [destruct Hs|]. inversion Fu; subst. destruct Hs as [<-|Hs]; eauto. }
      cbn [and_bb] in Hi'. destruct (iv_and_clear cuts x i o s Wo Cl Hei Hi') as [->|K]; [discriminate|exact K]. }
    set (ne := filter (fun s => negb (is_empty s)) r0) in *.
    assert (Un : Union_ io (r :: ne) = Ok vals -> forall vs y, In (BReal vs) (parts vals) -> In y vs -> exists ws, In (BReal ws) u /\ In y ws).
    { intros Eu vs y Hv Hy. apply Union_inv in Eu. destruct Eu as (-> & _). cbn [parts flat_map] in Hv. apply in_app_iff in Hv. destruct Hv as [Hv|Hv].
      - destruct Ha as [->|(ws & -> & Ka)]; [destruct Hv|]. destruct Hv as [Hv|[]]. injection Hv as ->. now apply Ka.
      - apply in_flat_map in Hv. destruct Hv as (s & Hs & Hv). destruct (Iv s Hs) as (j & ->). destruct Hv as [Hv|[]]. discriminate. }
    destruct (is_empty r) eqn:Er.
    - destruct ne as [|s1 [|s2 ne']] eqn:Ene; [injection H as <-; left; exact I| |right; now apply Un]. injection H as <-. destruct (Iv s1 ltac:(now left)) as (j & ->). left. exact I.
    - destruct ne as [|s1 ne'] eqn:Ene; [|right; apply Un; exact H]. injection H as <-. left. destruct Ha as [->|(ws & -> & _)]; exact I.
  Qed.
  Lemma smooth_values : forall x (v : pset) (o : interval N) vals, wf v -> real_set v -> ends (cuts x) (points x) v -> wf_iv o -> clear_support cuts x o -> tight v ->
    (forall r, fm (FNum r) v -> ~ alone r (fun q => fm (FNum q) v)) -> pand io (PB (BInt o)) v = Ok vals -> not_union vals \/ forall vs, ~ In (BReal vs) (parts vals).
  Proof.
    intros x v o vals Wv Rv En Wo Cl T Sm H. destruct v as [|b|u].
    - cbn in H. injection H as <-. left. exact I.
    - left. destruct b as [|ws|i]; [contradiction| |]; cbn [pand and_bb] in H.
      + injection H as <-. unfold and_real_iv, freal_or_empty. destruct (dedup _ _); exact I.
      + unfold iv_and in H. repeat match type of H with (if ?c then _ else _) = _ => destruct c end; try (inv_bind H); injection H as <-; try exact I; destruct (iv_contains _ _); exact I.
    - destruct (clear_values x u o vals Wv Rv En Wo Cl H) as [Nu|K]; [now left|]. right. intros vs Hv.
      destruct (pand_f io _ _ _ (Wo : wf (PB (BInt o))) Wv H) as (Wr & _ & _ & Mr).
      assert (Wvs : wf_b (BReal vs)). { destruct vals as [|b|w]; cbn [parts] in Hv; [destruct Hv|destruct Hv as [->|[]]; exact Wr|]. destruct Wr as (Wr & _). rewrite Forall_forall in Wr. now apply Wr. }
      destruct Wvs as (_ & Ne). destruct vs as [|y vs]; [tauto|]. destruct (K (y :: vs) y Hv ltac:(now left)) as (ws & Hw & Hy).
      assert (My : mem (RNum (eR y)) vals). { destruct vals as [|b|w]; cbn [parts] in Hv; [destruct Hv|destruct Hv as [->|[]]; exists y; split; [now left|reflexivity]|]. exists (BReal (y :: vs)). split; auto. exists y. split; [now left|reflexivity]. }
      apply Mr in My. destruct My as (Mo & Mv). destruct (eR y) as [|r|] eqn:Ey.
      + destruct Wo as (_ & A & _). destruct Mo as (Mo & _). destruct (iv_lo o) eqn:Lo; [destruct (eR (iv_a o)); exact Mo|]. destruct Mo as [Mo|Mo]; [destruct (eR (iv_a o)); exact Mo|]. destruct (iv_a o); try discriminate Mo. specialize (A eq_refl). discriminate.
      + apply (Sm r); [exact Mv|]. apply (T ws y r); auto.
      + destruct Wo as (_ & _ & A). destruct Mo as (_ & Mo). destruct (iv_ro o) eqn:Lo; [exact Mo|]. destruct Mo as [Mo|Mo]; [exact Mo|]. destruct (iv_b o); try discriminate Mo. specialize (A eq_refl). discriminate.
  Qed.
End Solved.
