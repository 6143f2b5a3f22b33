(** The operations on sets make no new end points. *)
From Coq Require Import List Bool String Permutation Reals Lra Lia ZArith.
From Verif Require Import Base Num Sets SetSpec SetIv SetProofs SetOr SetOps SetAlg SetBuilt TotalSpec.
Import ListNotations.

Section Ends.
  Context {N : numsys} (io : iterorder N) (P Q : R -> Prop).
  Notation pset := (pset N).
  Notation iv_ends := (iv_ends (N:=N) P).
  Notation ends := (ends (N:=N) P Q).
  Definition named (y : ext (num N)) : Prop := forall r, eR y = Fin r -> P r \/ Q r.

  Lemma interval_ends : forall a b lo ro (i : interval N), Interval_ a b lo ro = Ok i -> iv_a i = a /\ iv_b i = b.
  Proof. intros a b lo ro i H. unfold Interval_ in H. inv_bind H. injection H as <-. auto. Qed.
  Lemma mix : forall s t (i : interval N), iv_ends s -> iv_ends t -> (iv_a i = iv_a s \/ iv_a i = iv_a t \/ iv_a i = iv_b s \/ iv_a i = iv_b t) ->
    (iv_b i = iv_a s \/ iv_b i = iv_a t \/ iv_b i = iv_b s \/ iv_b i = iv_b t) -> iv_ends i.
  Proof.
    intros s t i Hs Ht A B r [E|E]; [destruct A as [A|[A|[A|A]]]; rewrite A in E|destruct B as [B|[B|[B|B]]]; rewrite B in E]; auto.
  Qed.
  Lemma ends_int : forall i, iv_ends i -> ends (PB (BInt i)).
  Proof. intros i Hi. split; [intros j [E|[]]; injection E as <-; auto|intros vs y r [E|[]]; discriminate]. Qed.
  Lemma ends_empty : ends PEmpty.
  Proof. split; [intros j []|intros vs y r []]. Qed.
  Lemma ends_real : forall vs, Forall named vs -> ends (PB (BReal vs)).
  Proof. intros vs F. split; [intros j [E|[]]; discriminate|]. intros ws y r [E|[]] Hy. injection E as <-. rewrite Forall_forall in F. exact (F y Hy r). Qed.
  Lemma ends_nom : forall vs f, ends (PB (BNom vs f)).
  Proof. intros vs f. split; [intros j [E|[]]|intros ws y r [E|[]]]; discriminate. Qed.
  Lemma ends_inv : forall i, ends (PB (BInt i)) -> iv_ends i.
  Proof. intros i H. apply H. now left. Qed.
  Lemma ends_named : forall vs, ends (PB (BReal vs)) -> Forall named vs.
  Proof. intros vs (_ & H). apply Forall_forall. intros y Hy r. apply (H vs y r); [now left|auto]. Qed.
  Lemma end_named : forall i, iv_ends i -> named (iv_a i) /\ named (iv_b i).
  Proof. intros i H. split; intros r E; left; apply H; auto. Qed.
  Lemma ends_parts : forall v, ends v <-> Forall (fun b => ends (PB b)) (parts v).
  Proof.
    intros v. rewrite Forall_forall. split.
    - intros (A & B) b Hb. destruct b as [vs f|vs|i]; [apply ends_nom| |]; [apply ends_real, Forall_forall; intros y Hy r; now apply (B vs)|apply ends_int; auto].
    - intros H. split; [intros i Hi; apply ends_inv; auto|]. intros vs y r Hv Hy. pose proof (ends_named vs (H _ Hv)) as F. rewrite Forall_forall in F. now apply F.
  Qed.
  Hint Resolve ends_int ends_empty ends_real ends_nom ends_inv ends_named : core.

  Lemma iv_and_ends : forall i j r, iv_ends i -> iv_ends j -> iv_and i j = Ok r -> ends r.
  Proof.
    intros i j r Hi Hj H. unfold iv_and in H.
    repeat match type of H with (if ?b then _ else _) = _ => destruct b end;
      try (inv_bind H; match goal with E : Interval_ _ _ _ _ = Ok _ |- _ => apply interval_ends in E; destruct E as (Ea & Eb) end; injection H as <-; apply ends_int; apply (mix i j); auto; tauto);
      injection H as <-; auto; repeat match goal with |- TotalSpec.ends _ _ (if ?b then _ else _) => destruct b end; auto; apply ends_real; constructor; auto; now apply end_named.
  Qed.
  Lemma union_ends : forall l r, Forall ends l -> Union_ io l = Ok r -> ends r.
  Proof.
    intros l r F H. apply Union_inv in H. destruct H as (-> & _). apply ends_parts. cbn [parts]. apply Forall_forall. intros b Hb. apply in_flat_map in Hb. destruct Hb as (s & Hs & Hb). rewrite Forall_forall in F. specialize (F s Hs).
    destruct s; cbn [opt_list] in Hb; try (destruct Hb; fail). destruct Hb as [<-|[]]. exact F.
  Qed.
  Lemma iv_or_ends : forall i j r, iv_ends i -> iv_ends j -> iv_or io i j = Ok r -> ends r.
  Proof.
    intros i j r Hi Hj H. unfold iv_or in H. destruct (iv_eqb i j); [injection H as <-; auto|]. inv_bind H. destruct (is_empty _ && _ && _ && _ && _); [eapply union_ends; [|exact H]; auto|].
    set (l := [(iv_a i, iv_lo i); (iv_b i, iv_ro i); (iv_a j, iv_lo j); (iv_b j, iv_ro j)]) in H. pose proof (sort_In ep_leb l) as Qs. destruct (sort ep_leb l) as [|al [|am [|bm [|br [|]]]]]; try discriminate. inv_bind H. injection H as <-.
    match goal with E : Interval_ _ _ _ _ = Ok _ |- _ => apply interval_ends in E; destruct E as (Ea & Eb) end. apply ends_int, (mix i j); auto.
    - rewrite Ea. assert (K : In al l) by (apply Qs; simpl; auto). destruct K as [<-|[<-|[<-|[<-|[]]]]]; simpl; auto.
    - rewrite Eb. assert (K : In br l) by (apply Qs; simpl; auto). destruct K as [<-|[<-|[<-|[<-|[]]]]]; simpl; auto.
  Qed.
  Lemma sub_named : forall vs ws, (forall y, In y ws -> In y vs) -> Forall named vs -> Forall named ws.
  Proof. intros vs ws H F. rewrite Forall_forall in *. auto. Qed.
  Lemma FiniteReal_ends : forall vs (r : pset), Forall named vs -> FiniteReal vs = Ok r -> ends r.
  Proof. intros vs r F H. unfold FiniteReal in H. inv_bind H. injection H as <-. apply ends_real. apply (sub_named vs); auto. intros y. apply dedup_In. Qed.
  Lemma freal_ends : forall vs, Forall named vs -> ends (freal_or_empty (N:=N) vs).
  Proof. intros vs F. unfold freal_or_empty. pose proof (dedup_In eeqb vs) as K. destruct (dedup eeqb vs); auto. apply ends_real. apply (sub_named vs); auto. Qed.
  Lemma or_real_iv_ends : forall vs i r, Forall named vs -> iv_ends i -> or_real_iv io vs i = Ok r -> ends r.
  Proof.
    intros vs i r Hn Hi H. unfold or_real_iv in H. apply bind_Ok in H. destruct H as ((vs1 & i1) & E1 & H).
    assert (H1 : iv_ends i1 /\ Forall named vs1). { destruct (inb _ _ _ && _); [apply bind_Ok in E1; destruct E1 as (j & Ej & E1); injection E1 as <- <-; apply interval_ends in Ej; split; [apply (mix i i); auto; tauto|apply (sub_named vs); auto; intros y Hy; apply filter_In in Hy; tauto]|injection E1 as <- <-; auto]. }
    destruct H1 as (H1 & N1).
    apply bind_Ok in H. destruct H as ((vs2 & i2) & E2 & H).
    assert (H2 : iv_ends i2 /\ Forall named vs2). { destruct (inb _ (iv_b i1) _ && _); [apply bind_Ok in E2; destruct E2 as (j & Ej & E2); injection E2 as <- <-; apply interval_ends in Ej; split; [apply (mix i1 i1); auto; tauto|apply (sub_named vs1); auto; intros y Hy; apply filter_In in Hy; tauto]|injection E2 as <- <-; auto]. }
    destruct H2 as (H2 & N2). assert (N3 : Forall named (filter (fun v => negb (iv_contains v i2)) vs2)) by (apply (sub_named vs2); auto; intros y Hy; apply filter_In in Hy; tauto).
    destruct (filter _ vs2); [injection H as <-; auto|]. apply bind_Ok in H. destruct H as (f & Ef & H). eapply union_ends; [|exact H]. constructor; [eapply FiniteReal_ends; eauto|auto].
  Qed.
  Lemma FiniteNominal_ends : forall vs b (r : pset), FiniteNominal vs b = Ok r -> ends r.
  Proof. intros vs b r H. unfold FiniteNominal in H. inv_bind H. injection H as <-. auto. Qed.
  Lemma or_bb_ends : forall a b r, ends (PB a) -> ends (PB b) -> or_bb io a b = Ok r -> ends r.
  Proof.
    intros [vs f|vs|i] [ws g|ws|j] r Ha Hb H; cbn [or_bb] in H; try (eapply union_ends; [|exact H]; now auto).
    - unfold or_nom in H. destruct (truthy f); [|destruct (truthy g)]; eapply FiniteNominal_ends; eauto.
    - eapply FiniteReal_ends; [|exact H]. apply Forall_app. auto.
    - eapply or_real_iv_ends; [| |exact H]; auto.
    - eapply or_real_iv_ends; [| |exact H]; auto.
    - eapply iv_or_ends; [| |exact H]; auto.
  Qed.
  Lemma u_intervals_ends : forall u, ends (PUnion u) -> Forall iv_ends (u_intervals io u).
  Proof.
    intros u H. apply Forall_forall. intros i Hi. apply H. cbn [parts]. unfold u_intervals in Hi. apply (Permutation_in _ (Permutation_sym (it_iv_perm io _))) in Hi.
    apply dedup_In in Hi. apply in_flat_map in Hi. destruct Hi as ([ | |j] & Hb & Hi); [destruct Hi|destruct Hi|destruct Hi as [<-|[]]; exact Hb].
  Qed.
  Lemma u_atoms_ends : forall u, ends (PUnion u) -> ends (u_atoms (N:=N) u).
  Proof. intros u H. unfold u_atoms. destruct (find is_real u) as [b|] eqn:E; auto. apply find_some in E. apply ends_parts in H. rewrite Forall_forall in H. apply H. apply E. Qed.
  Lemma u_nominals_ends : forall u, ends (u_nominals (N:=N) u).
  Proof. intros u. unfold u_nominals. destruct (find is_nom u) as [b|] eqn:E; auto. apply find_some in E. destruct b; try (destruct E; discriminate). auto. Qed.
  Lemma merge_blocks_ends : forall l i d r, iv_ends i -> Forall iv_ends d -> Forall iv_ends l -> merge_blocks io i d l = Ok r -> Forall iv_ends r.
  Proof.
    induction l as [|j l IH]; intros i d r Hi Hd Hl H; cbn [merge_blocks] in H.
    - injection H as <-. apply Forall_app. split; [|auto]. now apply Forall_rev.
    - inversion Hl; subst. apply bind_Ok in H. destruct H as (u & Eu & H). apply iv_or_ends in Eu; auto. destruct u as [|[| |k]|w]; try discriminate; eapply IH; try exact H; auto.
  Qed.
  Lemma union_intervals_ends : forall l r, Forall iv_ends l -> union_intervals io l = Ok r -> Forall iv_ends r.
  Proof.
    intros l r F H. unfold union_intervals in H. assert (Fs : Forall iv_ends (sort iv_leb l)) by (eapply Permutation_Forall; [apply sort_perm|exact F]).
    destruct (sort iv_leb l); [discriminate|]. inversion Fs; subst. eapply merge_blocks_ends; [| | |exact H]; auto.
  Qed.
  Definition named_opt (f : option (list (ext (num N)))) : Prop := match f with Some vs => Forall named vs | None => True end.
  Lemma absorb_ends : forall l f r, named_opt f -> Forall iv_ends l -> absorb io l f = Ok r -> Forall iv_ends (fst r) /\ named_opt (snd r).
  Proof.
    induction l as [|i l IH]; intros f r Hf F H; cbn [absorb] in H; [injection H as <-; auto|]. inversion F; subst. apply bind_Ok in H. destruct H as (u & Eu & H).
    assert (Hu : ends u). { unfold iv_or_finite in Eu. destruct f; [eapply or_real_iv_ends; eauto|injection Eu as <-; auto]. }
    destruct u as [|[| |k]|w]; try discriminate.
    - apply bind_Ok in H. destruct H as (q & Eq & H). injection H as <-. cbn [fst snd]. destruct (IH None q Logic.I H3 Eq) as (A & B). auto.
    - pose proof (u_atoms_ends w Hu) as Ha. destruct (u_atoms w) as [|[|vs|]|]; try discriminate. pose proof (u_intervals_ends w Hu) as Fw. destruct (u_intervals io w) as [|k [|]]; try discriminate. inversion Fw; subst.
      apply bind_Ok in H. destruct H as (q & Eq & H). injection H as <-. cbn [fst snd]. destruct (IH (Some vs) q (ends_named vs Ha) H3 Eq) as (A & B). auto.
  Qed.
  Lemma uif_ends : forall l f r, named_opt f -> Forall iv_ends l -> union_intervals_finite io l f = Ok r -> Forall (fun b => ends (PB b)) r.
  Proof.
    intros l f r Hf F H. unfold union_intervals_finite in H. assert (M : forall bs, Forall iv_ends bs -> Forall (fun b => ends (PB b)) (map BInt bs)) by (intros bs Fb; apply Forall_map; eapply Forall_impl; [|exact Fb]; auto).
    destruct f as [vs|]; apply bind_Ok in H; destruct H as (q & Eq & H).
    - apply bind_Ok in H. destruct H as (bs & Eb & H). injection H as <-. destruct (absorb_ends l (Some vs) q Hf F Eq) as (A & B). apply Forall_app. split; [|destruct (snd q); auto]. apply M. eapply union_intervals_ends; [|exact Eb]. exact A.
    - injection H as <-. apply M. eapply union_intervals_ends; eauto.
  Qed.
  Lemma as_finite_named : forall s, ends s -> named_opt (as_finite s).
  Proof. intros [|[]|] H; simpl; auto. Qed.
  Lemma finish_ends : forall u bs r, Forall (fun b => ends (PB b)) bs -> or_ub_finish io u bs = Ok r -> ends r.
  Proof.
    intros u bs r F H. unfold or_ub_finish in H. apply bind_Ok in H. destruct H as (_ & _ & H).
    assert (K : Union_ io (u_nominals u :: map PB bs) = Ok r -> ends r). { intros E. eapply union_ends; [|exact E]. constructor; [apply u_nominals_ends|now apply Forall_map]. }
    destruct bs as [|b [|]]; auto. inversion F; subst. destruct (u_nominals u); auto. injection H as <-. auto.
  Qed.
  Lemma or_ub_ends : forall u b r, ends (PUnion u) -> ends (PB b) -> or_ub io u b = Ok r -> ends r.
  Proof.
    intros u [vs f|vs|i] r Hu Hb H; cbn [or_ub] in H; apply bind_Ok in H; destruct H as (q & Eq & H); pose proof (u_intervals_ends u Hu) as Fu.
    - eapply union_ends; [|exact H]. constructor; [|constructor; [now apply u_atoms_ends|apply Forall_map; eapply Forall_impl; [|exact Fu]; auto]].
      pose proof (u_nominals_ends u) as Hn. destruct (u_nominals u) as [|c|]; cbn [or_pb] in Eq; try (injection Eq as <-; auto). eapply or_bb_ends; [| |exact Eq]; auto.
    - apply bind_Ok in H. destruct H as (bs & Eb & H). eapply finish_ends; [|exact H]. eapply uif_ends; [| |exact Eb]; auto. apply as_finite_named.
      pose proof (u_atoms_ends u Hu) as Hn. destruct (u_atoms u) as [|c|]; cbn [or_pb] in Eq; try (injection Eq as <-; now auto). eapply or_bb_ends; [| |exact Eq]; auto.
    - eapply finish_ends; [|exact H]. eapply uif_ends; [| |exact Eq]; [now apply as_finite_named, u_atoms_ends|]. apply Forall_app. auto.
  Qed.
  Lemma u_values_ends : forall u, ends (PUnion u) -> Forall (fun b => ends (PB b)) (u_values io u).
  Proof.
    intros u H. unfold u_values. eapply Permutation_Forall; [apply it_bs_perm|]. apply Forall_app. split; [|apply Forall_app; split].
    - pose proof (u_nominals_ends u) as Hn. destruct (u_nominals u); cbn [opt_list]; auto.
    - pose proof (u_atoms_ends u H) as Hn. destruct (u_atoms u); cbn [opt_list]; auto.
    - apply Forall_map. eapply Forall_impl; [|exact (u_intervals_ends u H)]. auto.
  Qed.
  Lemma por_ends : forall s t r, ends s -> ends t -> por io s t = Ok r -> ends r.
  Proof.
    intros [|b|u] [|c|w] r Hs Ht H; cbn [por] in H; try (injection H as <-; now auto).
    - eapply or_bb_ends; [| |exact H]; auto.
    - eapply or_ub_ends; [| |exact H]; auto.
    - eapply or_ub_ends; [| |exact H]; auto.
    - pose proof (u_values_ends w Ht) as F. clear Ht. revert H Hs. generalize (PUnion u). induction F as [|b l Hb Fl IH]; intros s H Hs; cbn [foldM] in H; [injection H as <-; auto|].
      apply bind_Ok in H. destruct H as (q & Eq & H). apply (IH q H). destruct s as [|a|v]; cbn [por_b] in Eq; [injection Eq as <-; auto|eapply or_bb_ends; [| |exact Eq]; auto|eapply or_ub_ends; [| |exact Eq]; auto].
  Qed.
  Lemma reduce_por_ends : forall l r, Forall ends l -> reduceM (por io) l = Ok r -> ends r.
  Proof.
    intros [|a l] r F H; [discriminate|]. cbn [reduceM] in H. inversion F as [|? ? Ha Fl]; subst. clear F. revert a Ha H. induction Fl as [|b l Hb Fl IH]; intros a Ha H; cbn [foldM] in H; [injection H as <-; auto|].
    apply bind_Ok in H. destruct H as (q & Eq & H). apply (IH q); auto. eapply por_ends; [| |exact Eq]; auto.
  Qed.
  Lemma and_bb_ends : forall a b r, ends (PB a) -> ends (PB b) -> and_bb a b = Ok r -> ends r.
  Proof.
    intros [vs f|vs|i] [ws g|ws|j] r Ha Hb H; cbn [and_bb] in H; try (eapply iv_and_ends; [| |exact H]; now auto); injection H as <-; auto.
    - unfold and_nom, fnom_or_empty. destruct (truthy f), (truthy g); cbn [negb]; auto; destruct (dedup String.eqb _); auto.
    - apply freal_ends. apply (sub_named vs); auto. intros y Hy. apply filter_In in Hy. tauto.
    - apply freal_ends. apply (sub_named vs); auto. intros y Hy. apply filter_In in Hy. tauto.
    - apply freal_ends. apply (sub_named ws); auto. intros y Hy. apply filter_In in Hy. tauto.
  Qed.
  Lemma and_ub_ends : forall u b r, ends (PUnion u) -> ends (PB b) -> and_ub io u b = Ok r -> ends r.
  Proof.
    intros u b r Hu Hb H. assert (Pb : forall s q, ends s -> and_pb s b = Ok q -> ends q).
    { intros s q Hs E. destruct s; cbn [and_pb] in E; try (injection E as <-; now auto). eapply and_bb_ends; [| |exact E]; auto. }
    assert (K : (do atoms <- and_pb (u_atoms u) b; do ivs <- mapM (fun i => and_bb (BInt i) b) (u_intervals io u);
      match is_empty atoms, filter (fun s => negb (is_empty s)) ivs with true, [] => Ok PEmpty | true, [i] => Ok i | false, [] => Ok atoms | _, _ => Union_ io (atoms :: filter (fun s => negb (is_empty s)) ivs) end) = Ok r -> ends r).
    { intros E. apply bind_Ok in E. destruct E as (at_ & Ea & E). apply bind_Ok in E. destruct E as (ivs & Ei & E). pose proof (Pb _ _ (u_atoms_ends u Hu) Ea) as Ha.
      assert (Fi : Forall ends (filter (fun s => negb (is_empty s)) ivs)).
      { apply mapM_Forall2 in Ei. pose proof (u_intervals_ends u Hu) as Fu. clear E. induction Ei as [|i s l l' Hi _ IH]; [constructor|]. inversion Fu; subst. cbn [filter]. assert (Es : ends s) by (eapply and_bb_ends; [| |exact Hi]; auto). destruct (negb (is_empty s)); auto. }
      destruct (filter _ ivs) as [|j [|k l]]; destruct (is_empty at_); try (injection E as <-; inversion Fi; subst; now auto); eapply union_ends; [|exact E| |exact E| |exact E]; auto. }
    destruct b; cbn [and_ub] in H; auto. eapply Pb; [|exact H]. apply u_nominals_ends.
  Qed.
  Lemma pand_ends : forall s t r, ends s -> ends t -> pand io s t = Ok r -> ends r.
  Proof.
    intros [|b|u] [|c|w] r Hs Ht H; cbn [pand] in H; try (injection H as <-; now auto).
    - eapply and_bb_ends; [| |exact H]; auto.
    - eapply and_ub_ends; [| |exact H]; auto.
    - eapply and_ub_ends; [| |exact H]; auto.
    - apply bind_Ok in H. destruct H as (l & El & H). eapply reduce_por_ends; [|exact H]. pose proof (u_values_ends w Ht) as F. apply mapM_Forall2 in El. clear H. induction El as [|b s l l' Hb _ IH]; [constructor|]. inversion F; subst. constructor; auto. eapply and_ub_ends; [| |exact Hb]; auto.
  Qed.
End Ends.

Section Clear.
  Context {N : numsys} (cuts : string -> R -> Prop).
  Lemma own_a : forall o : interval N, iv_contains (iv_a o) o = true -> iv_lo o = false.
  Proof.
    intros o H. destruct (iv_lo o) eqn:Lo; auto. unfold iv_contains in H. rewrite Lo in H. replace (eltb (iv_a o) (iv_a o)) with false in H; [discriminate|]. symmetry. rewrite eltb_R; unfold Rltb; destruct (Rlt_dec _ _); auto; lra.
  Qed.
  Lemma own_b : forall o : interval N, iv_contains (iv_b o) o = true -> iv_ro o = false.
  Proof.
    intros o H. destruct (iv_ro o) eqn:Lo; auto. unfold iv_contains in H. rewrite Lo in H. apply andb_prop in H. destruct H as (_ & H). replace (eltb (iv_b o) (iv_b o)) with false in H; [discriminate|]. symmetry. rewrite eltb_R; unfold Rltb; destruct (Rlt_dec _ _); auto; lra.
  Qed.
  (** intersecting an interval that ends at cuts with a support leaves no single point *)
  Lemma iv_and_clear : forall x (i o : interval N) r, wf_iv o -> clear_support cuts x o -> iv_ends (cuts x) i -> iv_and i o = Ok r ->
    r = PEmpty \/ exists j, r = PB (BInt j).
  Proof.
    intros x i o r Wo (Ca & Cb) Hi H. unfold iv_and in H.
    assert (A : eeqb (iv_b i) (iv_a o) = true -> iv_contains (iv_a o) o = true -> False).
    { intros E K. apply own_a in K. apply eeqb_eR in E. destruct Ca as [Ca|Ca]; [congruence|]. destruct (eR (iv_a o)) as [|q|] eqn:Eo.
      - destruct (iv_a o) eqn:Eo2; try discriminate Eo. destruct Wo as (_ & Wo & _). rewrite Wo in K; [discriminate|]. assumption.
      - apply (Ca q); auto.
      - destruct (iv_a o) eqn:Eo2; try discriminate Eo. destruct Wo as (Wo & _). rewrite Eo2 in Wo. destruct (iv_b o); destruct Wo. }
    assert (B : eeqb (iv_a i) (iv_b o) = true -> iv_contains (iv_b o) o = true -> False).
    { intros E K. apply own_b in K. apply eeqb_eR in E. destruct Cb as [Cb|Cb]; [congruence|]. destruct (eR (iv_b o)) as [|q|] eqn:Eo.
      - destruct (iv_b o) eqn:Eo2; try discriminate Eo. destruct Wo as (Wo & _). rewrite Eo2 in Wo. destruct (iv_a o); destruct Wo.
      - apply (Cb q); auto.
      - destruct (iv_b o) eqn:Eo2; try discriminate Eo. destruct Wo as (_ & _ & Wo). rewrite Wo in K; [discriminate|]. assumption. }
    repeat match type of H with
    | (if ?b then _ else _) = _ => let E := fresh "E" in destruct b eqn:E
    | (do i <- ?m; _) = _ => destruct m; [cbn [bind] in H|discriminate]
    end; injection H as <-; eauto.
    - destruct (iv_contains (iv_a o) o) eqn:K; auto. destruct A; auto.
    - destruct (iv_contains (iv_b o) o) eqn:K; auto. destruct B; auto.
  Qed.
End Clear.
