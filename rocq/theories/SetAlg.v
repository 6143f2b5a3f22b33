(** The set operations on every pair of sets: union, intersection, complement. *)
From Coq Require Import List Bool String Permutation ZArith Reals Lra Lia.
From Verif Require Import Base Num Sets SetSpec SetIv SetProofs SetIvOr SetOr SetOps.
Import ListNotations.
Local Open Scope R_scope.

Section Proofs.
  Context {N : numsys} (io : iterorder N).
  Notation enum := (ext (num N)).
  Implicit Types (i j : interval N) (b c : bset N) (s t r : pset N) (u w : list (bset N)).

  Lemma real_b_nom : forall b, real_b b <-> is_nom b = false.
  Proof. intros [| |]; simpl; split; try easy. Qed.

  Lemma or_ub_stuck : forall u vs, pieces_ok u -> wf_b (BReal vs) -> u_intervals io u = [] ->
    or_ub io u (BReal vs) = Raise IndexError.
  Proof.
    intros u vs P (ND & NE) E. unfold or_ub.
    assert (G : exists ws, or_pb io (u_atoms u) (BReal vs) = Ok (PB (BReal ws))).
    { destruct (u_atoms_cases u P) as [->|(ws & -> & (ND' & NE'))]; simpl or_pb; [eauto|].
      unfold FiniteReal. destruct ws as [|x ws]; [tauto|].
      change (is_nil ((x :: ws) ++ vs)) with false. cbn [negb passert bind]. eauto. }
    destruct G as (ws & ->). cbn [bind as_finite]. rewrite E. reflexivity.
  Qed.

  Lemma or_ub_spec : forall u c r, wf (PUnion u) -> wf_b c -> or_ub io u c = Ok r ->
    or_spec (PUnion u) (PB c) r.
  Proof.
    intros u c r Wu Wc H.
    destruct (u_intervals io u) as [|k l] eqn:E.
    - destruct (is_real c) eqn:R.
      + destruct c as [|vs|]; try discriminate. apply wf_union_iff in Wu.
        rewrite or_ub_stuck in H; tauto || discriminate.
      + destruct (or_ub_ok io u c Wu Wc) as (r' & E' & S); [auto|]. rewrite H in E'.
        injection E' as <-. exact S.
    - destruct (or_ub_ok io u c Wu Wc) as (r' & E' & S); [left; congruence|]. rewrite H in E'.
      injection E' as <-. exact S.
  Qed.

  (** a union of number pieces always has an interval *)
  Lemma real_union_interval : forall u, wf (PUnion u) -> Forall real_b u -> u_intervals io u <> [].
  Proof.
    intros u W R E. apply wf_union_iff in W. destruct W as (P & L).
    pose proof (u_real_part io u P L) as H.
    pose proof (partition_perm u) as Q. apply Permutation_length in Q.
    rewrite !app_length, map_length in Q.
    pose proof (Permutation_length (u_intervals_perm io u P)) as Q2. rewrite E in Q2. simpl in Q2.
    assert (E0 : filter is_nom u = []).
    { clear -R. induction R as [|b l H _ IH]; simpl; auto. destruct b; simpl in *; tauto. }
    destruct P as (_ & _ & C2 & _). rewrite E0, Q2 in Q. simpl in Q. lia.
  Qed.

  Lemma or_spec_comm : forall s t r, or_spec s t r -> or_spec t s r.
  Proof.
    unfold or_spec. intros s t r (A & B & C & D & E). ands; auto.
    - intros v H. apply B in H. tauto.
    - intros v F H. apply C; tauto.
    - intros H. apply E in H. tauto.
  Qed.
  Lemma or_spec_empty_l : forall t, wf t -> or_spec PEmpty t t.
  Proof. intros t W. unfold or_spec. simpl. ands; auto; tauto. Qed.

  Lemma por_b_spec : forall s x r, wf s -> wf_b x -> por_b io s x = Ok r -> or_spec s (PB x) r.
  Proof.
    intros [|b|u] x r Ws Wx H; simpl in H.
    - injection H as <-. now apply or_spec_empty_l.
    - destruct (or_bb_ok io b x Ws Wx) as (r' & E & S). rewrite H in E. injection E as <-. exact S.
    - now apply or_ub_spec.
  Qed.
  Lemma por_b_total : forall s x, wf s -> wf_b x -> real_set s -> real_b x ->
    exists r, por_b io s x = Ok r.
  Proof.
    intros [|b|u] x Ws Wx Rs Rx; simpl.
    - eauto.
    - destruct (or_bb_ok io b x Ws Wx) as (r' & E & S). eauto.
    - destruct (or_ub_ok io u x Ws Wx) as (r' & E & S); [left; now apply real_union_interval|]. eauto.
  Qed.

  Definition mem_list v (l : list (bset N)) := exists b, In b l /\ bmem v b.

  Lemma fold_por_spec : forall l s r, wf s -> Forall wf_b l -> foldM (por_b io) l s = Ok r ->
    wf r /\ (forall v, mem v r -> mem v s \/ mem_list v l) /\
    (forall v, finite_val v -> mem v s \/ mem_list v l -> mem v r) /\
    (real_set s -> Forall real_b l -> real_set r) /\
    (r = PEmpty -> s = PEmpty /\ l = []).
  Proof.
    induction l as [|b l IH]; simpl; intros s r Ws Wl H.
    - injection H as <-. unfold mem_list. ands; auto.
      intros v _ [|(b & [] & _)]; auto.
    - inv_bind H. inversion Wl; subst. apply por_b_spec in E; auto.
      destruct E as (E1 & E2 & E3 & E4 & E5).
      destruct (IH _ _ E1 H3 H) as (F1 & F2 & F3 & F4 & F5). ands; auto.
      + intros v Hv. destruct (F2 v Hv) as [G|(c & Hc & G)].
        * apply E2 in G. destruct G as [G|G]; auto. right. exists b; simpl; auto.
        * right. exists c; simpl; auto.
      + intros v Fv G. apply F3; auto.
        destruct G as [G|(c & [<-|Hc] & G)]; [left; auto..|right; exists c; auto].
      + intros Rs Rl. inversion Rl; subst. auto.
      + intros G. apply F5 in G. destruct G as (G & _). apply E5 in G. destruct G; discriminate.
  Qed.
  Lemma fold_por_total : forall l s, wf s -> Forall wf_b l -> real_set s -> Forall real_b l ->
    exists r, foldM (por_b io) l s = Ok r.
  Proof.
    induction l as [|b l IH]; simpl; intros s Ws Wl Rs Rl; [eauto|].
    inversion Wl; inversion Rl; subst.
    destruct (por_b_total s b) as (r & E); auto. rewrite E. simpl.
    apply por_b_spec in E; auto. destruct E as (E1 & E2 & E3 & E4 & E5). apply IH; auto.
  Qed.

  Lemma u_values_facts : forall u, wf (PUnion u) -> Forall wf_b (u_values io u) /\
    (forall v, mem_list v (u_values io u) <-> mem v (PUnion u)) /\
    (Forall real_b u -> Forall real_b (u_values io u)) /\ u_values io u <> [].
  Proof.
    intros u W. apply wf_union_iff in W. destruct W as (P & L).
    pose proof (u_values_perm io u P) as Q. ands.
    - eapply Permutation_Forall; [exact Q|apply P].
    - intros v. unfold mem_list. now rewrite (u_values_mem io u v P).
    - intros R. eapply Permutation_Forall; eauto.
    - intros E. rewrite E in Q. apply Permutation_sym, Permutation_nil in Q. subst. simpl in L. lia.
  Qed.

  Lemma por_spec : forall s t r, wf s -> wf t -> por io s t = Ok r -> or_spec s t r.
  Proof.
    intros [|b|u] [|c|w] r Ws Wt H; simpl in H.
    - injection H as <-. now apply or_spec_empty_l.
    - injection H as <-. now apply or_spec_empty_l.
    - injection H as <-. now apply or_spec_empty_l.
    - injection H as <-. now apply or_spec_comm, or_spec_empty_l.
    - now apply (por_b_spec (PB b)).
    - apply or_spec_comm. now apply or_ub_spec.
    - injection H as <-. now apply or_spec_comm, or_spec_empty_l.
    - now apply or_ub_spec.
    - destruct (u_values_facts w Wt) as (W1 & W2 & W3 & W4).
      apply fold_por_spec in H; auto. destruct H as (A & B & C & D & E).
      unfold or_spec. ands; auto.
      + intros v Hv. rewrite <- W2. auto.
      + intros v Hv. rewrite <- W2. auto.
      + intros G. apply E in G. tauto.
  Qed.
  Lemma por_total : forall s t, wf s -> wf t -> real_set s -> real_set t -> exists r, por io s t = Ok r.
  Proof.
    intros [|b|u] [|c|w] Ws Wt Rs Rt; simpl; eauto.
    - now apply (por_b_total (PB b) c).
    - now apply (por_b_total (PUnion w) b).
    - now apply (por_b_total (PUnion u) c).
    - destruct (u_values_facts w Wt) as (W1 & W2 & W3 & W4). now apply fold_por_total; auto.
  Qed.

  (** ** Intersection *)
  Definition and_spec s t r : Prop :=
    wf r /\ (forall v, mem v r -> mem v s /\ mem v t) /\
    (forall v, finite_val v -> mem v s -> mem v t -> mem v r) /\
    (real_set s \/ real_set t -> real_set r).
  (** exact on infinite values as well *)
  Definition and_exact s t r : Prop :=
    wf r /\ (forall v, mem v r <-> mem v s /\ mem v t) /\ (real_set s \/ real_set t -> real_set r).

  Lemma and_exact_spec : forall s t r, and_exact s t r -> and_spec s t r.
  Proof.
    intros s t r (A & B & C). unfold and_spec. ands; auto.
    - intros v. apply B.
    - intros v _ H1 H2. apply B. auto.
  Qed.
  Lemma and_exact_comm : forall s t r, and_exact s t r -> and_exact t s r.
  Proof.
    intros s t r (A & B & C). unfold and_exact. ands; auto.
    - intros v. rewrite B. tauto.
    - tauto.
  Qed.

  Lemma and_bb_ok : forall b c, wf_b b -> wf_b c ->
    exists r, and_bb b c = Ok r /\ and_exact (PB b) (PB c) r /\ not_union r.
  Proof.
    intros [vs f|vs|i] [ws g|ws|j] Wb Wc; unfold and_bb;
      try (exists PEmpty; split; [reflexivity|]; split; [|exact I];
           unfold and_exact; simpl; ands; auto; intros [v|str]; tauto).
    - unfold and_nom. destruct (truthy f) eqn:Ef; [destruct (truthy g) eqn:Eg|]; cbn [negb].
      + exists (PB (BNom (dedup String.eqb (vs ++ ws)) (Some true))). split; [reflexivity|]. split; [|exact I].
        unfold and_exact. ands.
        * split; [apply dedup_string_NoDup|now right].
        * intros [v|str]; cbn [mem bmem]; [tauto|]. cbn [truthy].
          rewrite dedup_string_In, in_app_iff, Ef, Eg. tauto.
        * simpl. tauto.
      + destruct (fnom_or_empty_ok (N:=N) (filter (fun v => nom_contains v vs f) ws)) as (A & B & C).
        eexists. split; [reflexivity|]. split; [|destruct (fnom_or_empty _); try exact I; easy].
        unfold and_exact. ands; auto.
        * intros v. rewrite B. destruct v as [v|str]; [simpl; tauto|].
          rewrite filter_In, (nom_contains_ok (N:=N)). simpl. rewrite Eg. tauto.
        * simpl. tauto.
      + destruct (fnom_or_empty_ok (N:=N) (filter (fun v => nom_contains v ws g) vs)) as (A & B & C).
        eexists. split; [reflexivity|]. split; [|destruct (fnom_or_empty _); try exact I; easy].
        unfold and_exact. ands; auto.
        * intros v. rewrite B. destruct v as [v|str]; [simpl; tauto|].
          rewrite filter_In, (nom_contains_ok (N:=N)). simpl. rewrite Ef. tauto.
        * simpl. tauto.
    - unfold and_real_real.
      destruct (freal_or_empty_ok (N:=N) (filter (fun v => inb eeqb v ws) vs)) as (A & B & C).
      eexists. split; [reflexivity|]. split; [|destruct (freal_or_empty _); try exact I; easy].
      unfold and_exact. ands; auto.
      + intros v. rewrite B. destruct v as [v|str]; [|simpl; tauto]. cbn [mem].
        rewrite !bmem_real. rewrite !in_map_iff. split.
        * intros (y & <- & Hy). apply filter_In in Hy. destruct Hy as (H1 & H2).
          split; [eauto|]. apply inb_eeqb in H2. now apply in_map_iff in H2.
        * intros ((y & <- & Hy) & H). exists y. split; auto. apply filter_In. split; auto.
          apply inb_eeqb. now apply in_map_iff.
      + intros _. destruct (freal_or_empty _) as [|[]|]; simpl in *; tauto.
    - unfold and_real_iv.
      destruct (freal_or_empty_ok (N:=N) (filter (fun v => iv_contains v j) vs)) as (A & B & C).
      eexists. split; [reflexivity|]. split; [|destruct (freal_or_empty _); try exact I; easy].
      unfold and_exact. ands; auto.
      + intros v. rewrite B. destruct v as [v|str]; [|simpl; tauto]. cbn [mem].
        rewrite !bmem_real. rewrite !in_map_iff. split.
        * intros (y & <- & Hy). apply filter_In in Hy. destruct Hy as (H1 & H2).
          split; [eauto|]. simpl. apply iv_mem_pm. now apply iv_contains_R in H2.
        * intros ((y & <- & Hy) & H). exists y. split; auto. apply filter_In. split; auto.
          simpl in H. apply iv_mem_pm in H. now apply iv_contains_R.
      + intros _. destruct (freal_or_empty _) as [|[]|]; simpl in *; tauto.
    - unfold and_real_iv.
      destruct (freal_or_empty_ok (N:=N) (filter (fun v => iv_contains v i) ws)) as (A & B & C).
      eexists. split; [reflexivity|]. split; [|destruct (freal_or_empty _); try exact I; easy].
      unfold and_exact. ands; auto.
      + intros v. rewrite B. destruct v as [v|str]; [|simpl; tauto]. cbn [mem].
        rewrite !bmem_real. rewrite !in_map_iff. split.
        * intros (y & <- & Hy). apply filter_In in Hy. destruct Hy as (H1 & H2).
          split; [|eauto]. simpl. apply iv_mem_pm. now apply iv_contains_R in H2.
        * intros (H & (y & <- & Hy)). exists y. split; auto. apply filter_In. split; auto.
          simpl in H. apply iv_mem_pm in H. now apply iv_contains_R.
      + intros _. destruct (freal_or_empty _) as [|[]|]; simpl in *; tauto.
    - destruct (iv_and_ok i j Wb Wc) as (r & E & A & B & C & D). exists r. unfold and_exact. ands; auto.
  Qed.

  Lemma and_pb_ok : forall s c, wf s -> not_union s -> wf_b c ->
    exists r, and_pb s c = Ok r /\ and_exact s (PB c) r /\ not_union r.
  Proof.
    intros [|b|u] c Ws NU Wc; simpl; [| |now destruct NU].
    - exists PEmpty. unfold and_exact. simpl. ands; auto. tauto.
    - now apply and_bb_ok.
  Qed.

  Lemma u_nominals_wf : forall u, pieces_ok u -> wf (u_nominals u) /\ not_union (u_nominals u).
  Proof.
    intros u P. destruct (u_nominals_cases u P) as [(-> & _)|(vs & f & -> & W & _)]; simpl; auto.
  Qed.
  Lemma u_atoms_wf : forall u, pieces_ok u -> wf (u_atoms u) /\ not_union (u_atoms u).
  Proof.
    intros u P. destruct (u_atoms_cases u P) as [->|(vs & -> & W)]; simpl; auto.
  Qed.

  (** pieces of the intersection of every interval with a set of numbers *)
  Lemma map_and_iv : forall c l, wf_b c -> Forall wf_iv l ->
    ForallOrdPairs (fun i j => disjoint_b (BInt i) (BInt j)) l ->
    exists ivs, mapM (fun i => and_bb (BInt i) c) l = Ok ivs /\
      let ne := filter (fun s => negb (is_empty s)) ivs in
      Forall not_union ne /\ Forall wf_b (flat_map opt_list ne) /\
      List.length (flat_map opt_list ne) = List.length ne /\
      ForallOrdPairs disjoint_b (flat_map opt_list ne) /\ Forall real_b (flat_map opt_list ne) /\
      (forall v, mem_list v (flat_map opt_list ne) <->
        (exists i, In i l /\ bmem v (BInt i)) /\ bmem v c).
  Proof.
    intros c l Wc W D. induction l as [|i l IH].
    - exists []. simpl. ands; auto; try constructor.
      + intros (b & [] & _).
      + intros ((k & [] & _) & _).
    - inversion W; subst. apply FOP_cons in D. destruct D as (D1 & D2).
      destruct (IH H2 D2) as (ivs & E & Nu & Wn & Ln & Dn & Rn & Mn). clear IH.
      destruct (and_bb_ok (BInt i) c H1 Wc) as (r & Er & (Wr & Mr & Rr) & NUr).
      cbn [mapM]. rewrite Er. cbn [bind]. rewrite E. cbn [bind]. exists (r :: ivs). split; [reflexivity|].
      assert (Rr' : real_set r) by (apply Rr; left; exact I).
      destruct r as [|b|]; [| |now destruct NUr]; simpl.
      + ands; auto. intros v. rewrite Mn. split.
        * intros ((k & Hk & Hv) & Hc). split; auto. exists k. auto.
        * intros ((k & [<-|Hk] & Hv) & Hc); [|split; eauto].
          exfalso. apply (Mr v). auto.
      + ands; [now constructor|now constructor|now rewrite Ln| |now constructor|].
        * constructor; auto. apply Forall_forall. intros b' Hb' v Hv Hv'.
          apply Mr in Hv. destruct Hv as (Hv1 & Hv2).
          assert (ML : mem_list v (flat_map opt_list (filter (fun s => negb (is_empty s)) ivs))) by (exists b'; auto).
          apply Mn in ML. destruct ML as ((k & Hk & Hkv) & _). rewrite Forall_forall in D1.
          exact (D1 k Hk v Hv1 Hkv).
        * intros v. split.
          -- intros (b' & [<-|Hb'] & Hv).
             ++ apply Mr in Hv. split; [|tauto]. exists i. tauto.
             ++ assert (ML : mem_list v (flat_map opt_list (filter (fun s => negb (is_empty s)) ivs))) by (exists b'; auto).
                apply Mn in ML. destruct ML as ((k & Hk & Hkv) & Hc). split; auto. exists k. auto.
          -- intros ((k & [<-|Hk] & Hv) & Hc).
             ++ exists b. split; [now left|]. apply (proj2 (Mr v)). auto.
             ++ destruct (proj2 (Mn v)) as (b' & Hb' & Hv'); [split; eauto|]. exists b'. split; [now right|exact Hv'].
  Qed.

  Lemma FOP_In : forall u b c, ForallOrdPairs disjoint_b u -> In b u -> In c u -> b <> c -> disjoint_b b c.
  Proof.
    induction 1 as [|x l H _ IH]; simpl; [tauto|]. rewrite Forall_forall in H.
    intros [->|Hb] [->|Hc] NE; auto; try tauto. now apply disjoint_b_sym, H.
  Qed.
  Lemma u_atoms_disjoint : forall u b k, pieces_ok u -> u_atoms u = PB b -> In k (u_intervals io u) ->
    disjoint_b b (BInt k).
  Proof.
    intros u b k P E Hk. unfold u_atoms in E. destruct (find is_real u) eqn:F; [|discriminate].
    injection E as ->. apply find_some in F. destruct F as (F1 & F2).
    apply (FOP_In u); auto.
    - apply P.
    - apply ivs_In. eapply Permutation_in; [|exact Hk]. symmetry. now apply u_intervals_perm.
    - intros ->. discriminate.
  Qed.

  Definition and_ub_body u c : res (pset N) :=
    do atoms <- and_pb (u_atoms u) c;
    do ivs <- mapM (fun i => and_bb (BInt i) c) (u_intervals io u);
    let ivsne := filter (fun s => negb (is_empty s)) ivs in
    match is_empty atoms, ivsne with
    | true, [] => Ok PEmpty
    | true, [i] => Ok i
    | false, [] => Ok atoms
    | _, _ => Union_ io (atoms :: ivsne)
    end.
  Lemma and_ub_real : forall u c, real_b c -> and_ub io u c = and_ub_body u c.
  Proof. intros u [vs f|vs|k] H; [now destruct H|reflexivity..]. Qed.

  Lemma and_ub_body_spec : forall u c r, pieces_ok u -> wf_b c -> real_b c -> and_ub_body u c = Ok r ->
    and_exact (PUnion u) (PB c) r.
  Proof.
    intros u c r P Wc Rc H. pose proof (u_parts_mem io u P) as M.
    destruct (u_atoms_wf u P) as (Wa & Na). destruct (u_intervals_wf io u P) as (Wi & Di).
    unfold and_ub_body in H.
    destruct (and_pb_ok (u_atoms u) c Wa Na Wc) as (ra & Ea & (A & B & C) & Nra).
    destruct (map_and_iv c (u_intervals io u) Wc Wi Di) as (ivs & Ei & Nu & Wv & Lv & Dv & Rv & Mv).
    rewrite Ea in H. cbn [bind] in H. rewrite Ei in H. cbn [bind] in H.
    set (ne := filter (fun s => negb (is_empty s)) ivs) in *.
    assert (Rra : real_set ra) by (apply C; right; exact Rc).
    assert (MM : forall v, (mem v ra \/ mem_list v (flat_map opt_list ne)) <-> mem v (PUnion u) /\ mem v (PB c)).
    { intros v. cbn [mem]. rewrite M, B, Mv. cbn [mem]. split; [tauto|].
      intros ([G|[G|G]] & Gc); auto. exfalso.
      destruct (u_nominals_cases u P) as [(En & _)|(ws & g & En & _)]; rewrite En in G; [exact G|].
      destruct v, c; simpl in *; tauto. }
    assert (PO : (List.length (filter is_nom (flat_map opt_list (ra :: ne))) <= 1)%nat ->
                 (List.length (filter is_real (flat_map opt_list (ra :: ne))) <= 1)%nat ->
                 pieces_ok (flat_map opt_list (ra :: ne))).
    { intros C1 C2. unfold pieces_ok. ands; auto; simpl; destruct ra as [|ba|]; simpl; auto; try (now destruct Nra).
      apply FOP_cons. split; auto. apply Forall_forall. intros b' Hb' v Hv Hv'.
      apply (B v) in Hv. destruct Hv as (Hv1 & Hv2).
      assert (ML : mem_list v (flat_map opt_list ne)) by (exists b'; auto).
      apply Mv in ML. destruct ML as ((k' & Hk' & Hkv) & _).
      destruct (u_atoms_cases u P) as [Eat|(ws & Eat & _)]; rewrite Eat in Hv1; [exact Hv1|].
      exact (u_atoms_disjoint u _ k' P Eat Hk' v Hv1 Hkv). }
    assert (U : forall r, Union_ io (ra :: ne) = Ok r -> (2 <= List.length (flat_map opt_list (ra :: ne)))%nat ->
      and_exact (PUnion u) (PB c) r).
    { intros r' HU HL. pose proof (Union_inv _ _ _ HU) as (-> & C1 & C2).
      unfold and_exact. ands.
      - apply wf_of_pieces; auto.
      - intros v. rewrite <- MM. cbn [mem flat_map]. split.
        + intros (b & Hb & Hv). apply in_app_iff in Hb. destruct Hb as [Hb|Hb]; [|right; exists b; auto].
          left. destruct ra; simpl in *; try tauto. destruct Hb as [<-|[]]. exact Hv.
        + intros [G|(b & Hb & Hv)].
          * destruct ra as [|ba|]; [now destruct G| |now destruct Nra]. exists ba. split; auto. now left.
          * exists b. split; auto. apply in_app_iff. auto.
      - intros _. simpl. apply Forall_app. split; auto. destruct ra; simpl in *; auto. }
    destruct ra as [|ba|]; [| |now destruct Nra]; simpl in H;
      destruct ne as [|n1 [|n2 ne']] eqn:En.
    - injection H as <-. split; [assumption|]. split; [|auto]. intros v. split.
      + intros G. apply MM. now left.
      + intros G. apply MM in G. destruct G as [G|(b & [] & _)]. exact G.
    - inversion Nu; subst. destruct n1 as [|b1|]; [simpl in Lv; discriminate| |now exfalso].
      injection H as <-. unfold and_exact. ands.
      + now inversion Wv.
      + intros v. split.
        * intros G. apply MM. right. exists b1. split; [now left|exact G].
        * intros G. apply MM in G. destruct G as [[]|(b' & [<-|[]] & G)]. exact G.
      + intros _. now inversion Rv.
    - apply U; auto. simpl. simpl in Lv. rewrite Lv. lia.
    - injection H as <-. split; [assumption|]. split; [|auto]. intros v. split.
      + intros G. apply MM. now left.
      + intros G. apply MM in G. destruct G as [G|(b & [] & _)]. exact G.
    - apply U; auto. simpl. simpl in Lv. rewrite Lv. lia.
    - apply U; auto. simpl. simpl in Lv. rewrite Lv. lia.
  Qed.

  Lemma and_ub_spec : forall u c r, wf (PUnion u) -> wf_b c -> and_ub io u c = Ok r ->
    and_exact (PUnion u) (PB c) r.
  Proof.
    intros u c r Wu Wc H. apply wf_union_iff in Wu. destruct Wu as (P & L).
    destruct (is_nom c) eqn:Nc.
    2: { rewrite and_ub_real in H by (now apply real_b_nom). apply and_ub_body_spec; auto.
         now apply real_b_nom. }
    pose proof (u_parts_mem io u P) as M. destruct (u_nominals_wf u P) as (Wn & Nn).
    destruct c as [vs f| |]; try discriminate. unfold and_ub in H.
    destruct (and_pb_ok (u_nominals u) (BNom vs f) Wn Nn Wc) as (r' & E & (A & B & C) & _).
    rewrite H in E. injection E as <-. unfold and_exact. ands; auto.
    - intros v. rewrite B. cbn [mem]. rewrite M. split; [tauto|].
      intros ([G|[G|G]] & Gc); [tauto|exfalso..].
      + destruct (u_atoms_cases u P) as [Ea|(ws & Ea & _)]; rewrite Ea in G; [exact G|].
        destruct v; simpl in *; tauto.
      + destruct G as (k & _ & G). destruct v; simpl in *; tauto.
    - intros [G|G]; [|now destruct G]. simpl in G. apply C. left.
      destruct (u_nominals_cases u P) as [(-> & _)|(ws & g & -> & _ & Hin)]; [exact I|].
      rewrite Forall_forall in G. now apply G in Hin.
  Qed.
  Lemma and_ub_nom_total : forall u vs f, wf (PUnion u) -> wf_b (N:=N) (BNom vs f) ->
    exists r, and_ub io u (BNom vs f) = Ok r.
  Proof.
    intros u vs f Wu Wc. apply wf_union_iff in Wu. destruct Wu as (P & _).
    destruct (u_nominals_wf u P) as (Wn & Nn).
    destruct (and_pb_ok (u_nominals u) (BNom vs f) Wn Nn Wc) as (r' & E & _). exists r'. exact E.
  Qed.

  (** the terms of Union & Union, joined with | *)
  Lemma fold_por_terms : forall (l : list (pset N)) s r, wf s -> Forall wf l -> foldM (por io) l s = Ok r ->
    wf r /\ (forall v, mem v r -> mem v s \/ exists t, In t l /\ mem v t) /\
    (forall v, finite_val v -> (mem v s \/ exists t, In t l /\ mem v t) -> mem v r) /\
    (real_set s -> Forall real_set l -> real_set r).
  Proof.
    induction l as [|b l IH]; simpl; intros s r Ws Wl H.
    - injection H as <-. ands; auto. intros v _ [|(b & [] & _)]; auto.
    - inv_bind H. inversion Wl; subst. apply por_spec in E; auto.
      destruct E as (E1 & E2 & E3 & E4 & E5).
      destruct (IH _ _ E1 H3 H) as (F1 & F2 & F3 & F4). ands; auto.
      + intros v Hv. destruct (F2 v Hv) as [G|(c & Hc & G)]; eauto.
        apply E2 in G. destruct G as [G|G]; eauto.
      + intros v Fv G. apply F3; auto.
        destruct G as [G|(c & [<-|Hc] & G)]; [left; auto..|right; exists c; auto].
      + intros Rs Rl. inversion Rl; subst. auto.
  Qed.
  Lemma reduce_por_spec : forall (l : list (pset N)) r, Forall wf l -> reduceM (por io) l = Ok r ->
    wf r /\ (forall v, mem v r -> exists t, In t l /\ mem v t) /\
    (forall v, finite_val v -> (exists t, In t l /\ mem v t) -> mem v r) /\
    (Forall real_set l -> real_set r).
  Proof.
    intros [|s l] r W H; simpl in H; [discriminate|]. inversion W; subst.
    apply fold_por_terms in H; auto. destruct H as (A & B & C & D). ands; auto.
    - intros v Hv. destruct (B v Hv) as [G|(t & Ht & G)]; [exists s|exists t]; simpl; auto.
    - intros v Fv (t & [<-|Ht] & G); apply C; eauto.
    - intros R. inversion R; auto.
  Qed.
  Lemma reduce_por_total : forall (l : list (pset N)), l <> [] -> Forall wf l -> Forall real_set l ->
    exists r, reduceM (por io) l = Ok r.
  Proof.
    intros [|s l] NE W R; [tauto|]. clear NE. simpl. inversion W; inversion R; subst.
    clear W R. revert s H1 H5. induction l as [|t l IH]; simpl; intros s Ws Rs; [eauto|].
    inversion H2; inversion H6; subst.
    destruct (por_total s t) as (r & E); auto. rewrite E. simpl.
    apply por_spec in E; auto. destruct E as (E1 & _ & _ & E4 & _). apply IH; auto.
  Qed.

  Lemma pand_spec : forall s t r, wf s -> wf t -> pand io s t = Ok r -> and_spec s t r.
  Proof.
    assert (E0 : forall t, and_exact PEmpty t PEmpty).
    { intros t. unfold and_exact. simpl. ands; auto. tauto. }
    intros [|b|u] [|c|w] r Ws Wt H; simpl in H.
    - injection H as <-. apply and_exact_spec, E0.
    - injection H as <-. apply and_exact_spec, E0.
    - injection H as <-. apply and_exact_spec, E0.
    - injection H as <-. apply and_exact_spec, and_exact_comm, E0.
    - destruct (and_bb_ok b c Ws Wt) as (r' & E & S & _). rewrite H in E. injection E as <-.
      now apply and_exact_spec.
    - apply and_exact_spec, and_exact_comm. now apply and_ub_spec.
    - injection H as <-. apply and_exact_spec, and_exact_comm, E0.
    - apply and_exact_spec. now apply and_ub_spec.
    - inv_bind H. rename r0 into terms. apply mapM_Forall2 in E.
      destruct (u_values_facts w Wt) as (W1 & W2 & W3 & W4).
      assert (T : Forall2 (fun c t => and_exact (PUnion u) (PB c) t) (u_values io w) terms).
      { clear -E W1 Ws. induction E; constructor; inversion W1; subst; auto. now apply and_ub_spec. }
      assert (Wt' : Forall wf terms).
      { clear -T. induction T; constructor; auto. apply H. }
      apply reduce_por_spec in H; auto. destruct H as (A & B & C & D).
      assert (MT : forall v, (exists t, In t terms /\ mem v t) <-> mem v (PUnion u) /\ mem_list v (u_values io w)).
      { clear -T. intros v. unfold mem_list. induction T as [|c t l l' H _ IH].
        - split; [intros (t & [] & _)|intros (_ & (t & [] & _))].
        - destruct H as (_ & H & _). split.
          + intros (t' & [<-|Ht'] & Hv).
            * apply H in Hv. split; [tauto|]. exists c; simpl; tauto.
            * destruct (proj1 IH) as (G1 & (c' & Hc' & G2)); [eauto|]. split; auto. exists c'; simpl; auto.
          + intros (G & (c' & [<-|Hc'] & Hv)).
            * exists t. split; [now left|]. apply H. auto.
            * destruct (proj2 IH) as (t' & Ht' & Hv'); [eauto|]. exists t'; simpl; auto. }
      unfold and_spec. setoid_rewrite MT in B. setoid_rewrite MT in C. ands; auto.
      + intros v Hv. rewrite <- W2. auto.
      + intros v Fv H1 H2. apply C; auto. rewrite W2. auto.
      + intros R. apply D. clear -T R W3.
        assert (R' : real_set (PUnion u) \/ Forall real_b (u_values io w)) by (destruct R; auto).
        clear R W3. induction T; constructor.
        * destruct H as (_ & _ & H). apply H. destruct R' as [R'|R']; [now left|right; now inversion R'].
        * apply IHT. destruct R' as [R'|R']; [now left|right; now inversion R'].
  Qed.

  (** ** Complement *)
  Definition inv_spec s r : Prop :=
    wf r /\ real_set r /\ (forall v, mem v r -> ~ mem v s) /\
    (forall x : R, ~ mem (RNum (Fin x)) s -> mem (RNum (Fin x)) r).

  Lemma not_pm : forall p A B lo ro, ~ pm p A B lo ro <->
    (if lo then p <= A else p < A) \/ (if ro then B <= p else B < p).
  Proof. intros. unfold pm. destruct lo, ro; lra. Qed.

  Lemma inv_iv_ok : forall i, wf_iv i -> exists r, inv_iv io i = Ok r /\ inv_spec (PB (BInt i)) r.
  Proof.
    intros i W. pose proof W as W'. apply wf_iv_cases in W'. destruct W' as (Hab & Ba & Bb & Lo & Ro).
    unfold inv_iv. rewrite is_ninf_R, is_pinf_R. unfold Reqb.
    assert (Lint : -1 < pos (iv_a i) -> exists l, Interval_ NInf (iv_a i) false (negb (iv_lo i)) = Ok l /\ wf_iv l /\
      (forall v, iv_mem v l <-> -1 < ord v /\ if iv_lo i then ord v <= pos (iv_a i) else ord v < pos (iv_a i))).
    { intros H. destruct (Interval_ok NInf (iv_a i) false (negb (iv_lo i))) as (l & E & F1 & F2 & F3 & F4 & Wl).
      { rewrite pos_NInf. lra. }
      exists l. ands; auto. intros v. rewrite iv_mem_pm. unfold pm. rewrite F1, F2, F3, F4, pos_NInf.
      unfold Reqb. destruct (Req_EM_T (-1) (-1)); [|lra]. destruct (Req_EM_T (pos (iv_a i)) 1); [lra|].
      destruct (iv_lo i); simpl; lra. }
    assert (Rint : pos (iv_b i) < 1 -> exists l, Interval_ (iv_b i) PInf (negb (iv_ro i)) false = Ok l /\ wf_iv l /\
      (forall v, iv_mem v l <-> ord v < 1 /\ if iv_ro i then pos (iv_b i) <= ord v else pos (iv_b i) < ord v)).
    { intros H. destruct (Interval_ok (iv_b i) PInf (negb (iv_ro i)) false) as (l & E & F1 & F2 & F3 & F4 & Wl).
      { rewrite pos_PInf. lra. }
      exists l. ands; auto. intros v. rewrite iv_mem_pm. unfold pm. rewrite F1, F2, F3, F4, pos_PInf.
      unfold Reqb. destruct (Req_EM_T 1 1); [|lra]. destruct (Req_EM_T (pos (iv_b i)) (-1)); [lra|].
      destruct (iv_ro i); simpl; lra. }
    assert (Fin1 : forall x : R, -1 < ord (Fin x) < 1) by apply ord_Fin.
    destruct (Req_EM_T (pos (iv_a i)) (-1)) as [E1|E1], (Req_EM_T (pos (iv_b i)) 1) as [E2|E2].
    - exists PEmpty. split; [reflexivity|]. unfold inv_spec. ands; simpl; auto.
      intros x H. apply H. apply iv_mem_pm. unfold pm. specialize (Fin1 x).
      destruct (iv_lo i), (iv_ro i); lra.
    - destruct Rint as (l & -> & Wl & Ml); [lra|]. simpl. exists (PB (BInt l)). split; [reflexivity|].
      unfold inv_spec. ands; simpl; auto.
      + intros [v|str]; [|tauto]. rewrite Ml, iv_mem_pm, not_pm. intros (_ & H). right. exact H.
      + intros x. rewrite Ml, iv_mem_pm, not_pm. specialize (Fin1 x). intros H. split; [lra|].
        destruct H as [H|H]; auto. destruct (iv_lo i); [|lra]. lra.
    - destruct Lint as (l & -> & Wl & Ml); [lra|]. simpl. exists (PB (BInt l)). split; [reflexivity|].
      unfold inv_spec. ands; simpl; auto.
      + intros [v|str]; [|tauto]. rewrite Ml, iv_mem_pm, not_pm. intros (_ & H). left. exact H.
      + intros x. rewrite Ml, iv_mem_pm, not_pm. specialize (Fin1 x). intros H. split; [lra|].
        destruct H as [H|H]; auto. destruct (iv_ro i); [|lra]. lra.
    - destruct Lint as (l & -> & Wl & Ml); [lra|]. destruct Rint as (k & -> & Wk & Mk); [lra|]. cbn [bind].
      assert (D : disjoint_b (BInt l) (BInt k)).
      { intros [v|]; simpl; [|tauto]. rewrite Ml, Mk. destruct (iv_lo i), (iv_ro i); lra. }
      exists (PUnion [BInt l; BInt k]). split; [apply Union_pair; now apply disjoint_pieces2|].
      unfold inv_spec. ands.
      + apply wf_of_pieces; [now apply disjoint_pieces2|simpl; lia].
      + repeat constructor.
      + intros v. rewrite mem_pair. destruct v as [v|]; simpl; [|tauto].
        rewrite Ml, Mk, iv_mem_pm, not_pm. tauto.
      + intros x. rewrite mem_pair. simpl. specialize (Fin1 x).
        rewrite Ml, Mk, iv_mem_pm, not_pm. intros [H|H]; [left|right]; (split; [lra|exact H]).
  Qed.

  (** the gaps between sorted points *)
  Definition all_fin (vs : list enum) : Prop := Forall (fun x => -1 < pos x < 1) vs.

  Lemma gaps_ok : forall l x, -1 < pos x < 1 -> all_fin l -> sorted eleb (x :: l) -> NoDup (map eR (x :: l)) ->
    exists g, gaps x l = Ok g /\ Forall wf_iv g /\ g <> [] /\
      ForallOrdPairs (fun i j => disjoint_b (BInt i) (BInt j)) g /\
      (forall v, some_mem v g <-> pos x < ord v < 1 /\ ~ In v (map eR l)).
  Proof.
    induction l as [|y l IH]; intros x Fx Fl S ND.
    - simpl. unfold Lopen. destruct (Interval_ok x PInf true false) as (i & -> & F1 & F2 & F3 & F4 & W).
      { rewrite pos_PInf. lra. }
      simpl. exists [i]. ands; auto; try discriminate.
      + repeat constructor.
      + intros v. unfold some_mem. split.
        * intros (k & [<-|[]] & H). apply iv_mem_pm in H. unfold pm in H.
          rewrite F1, F2, F3, F4, pos_PInf in H. unfold Reqb in H.
          destruct (Req_EM_T 1 1); [|lra]. simpl in *. tauto.
        * intros (H & _). exists i. split; [now left|]. apply iv_mem_pm. unfold pm.
          rewrite F1, F2, F3, F4, pos_PInf. unfold Reqb.
          destruct (Req_EM_T 1 1); [|lra]. simpl in *. lra.
    - inversion Fl; subst. inversion S as [|? ? S1 S2]; subst. inversion ND as [|? ? N1 N2]; subst.
      assert (Lxy : pos x < pos y).
      { inversion S1; subst. apply eleb_pos in H3. destruct (Req_dec (pos x) (pos y)) as [E|]; [|lra].
        exfalso. apply N1. left. symmetry. now apply ord_inj. }
      destruct (IH y H1 H2 S2 N2) as (g & E & Wg & Ng & Dg & Mg).
      simpl. unfold open_. destruct (Interval_ok x y true true) as (i & -> & F1 & F2 & F3 & F4 & W); [exact Lxy|].
      simpl. rewrite E. simpl. exists (i :: g).
      assert (Mi : forall v, iv_mem v i <-> pos x < ord v < pos y).
      { intros v. rewrite iv_mem_pm. unfold pm. rewrite F1, F2, F3, F4. simpl. tauto. }
      ands; auto; try discriminate.
      + apply FOP_cons. split; auto. apply Forall_forall. intros k Hk [v|] H H'; [|exact H]. simpl in *.
        apply Mi in H. assert (G : some_mem v g) by (exists k; auto). apply Mg in G. lra.
      + intros v. split.
        * intros (k & [<-|Hk] & H).
          -- apply Mi in H. split; [lra|]. intros [G|G].
             ++ subst v. fold (pos y) in H. lra.
             ++ apply in_map_iff in G. destruct G as (z & <- & Hz). fold (pos z) in H.
                inversion S2 as [|? ? S3 S4]; subst. rewrite Forall_forall in S3. apply S3 in Hz. apply eleb_pos in Hz. lra.
          -- assert (G : some_mem v g) by (exists k; auto). apply Mg in G. destruct G as (G1 & G2).
             split; [lra|]. intros [G|G]; [|tauto]. subst v. fold (pos y) in G1. lra.
        * intros (H & NI). simpl in NI. destruct (Rtotal_order (ord v) (pos y)) as [G|[G|G]].
          -- exists i. split; [now left|]. apply Mi. lra.
          -- exfalso. apply NI. left. symmetry. now apply ord_inj.
          -- destruct (proj2 (Mg v)) as (k & Hk & Hv); [split; [lra|tauto]|]. exists k. split; [now right|auto].
  Qed.

  Lemma sorted_head_inf : forall (x : enum) l, sorted eleb (x :: l) -> Exists (fun y => pos y = -1) (x :: l) -> pos x = -1.
  Proof.
    intros x l S E. inversion S; subst. inversion E; subst; auto.
    rewrite Exists_exists in H0. destruct H0 as (y & Hy & P). rewrite Forall_forall in H1.
    apply H1 in Hy. apply eleb_pos in Hy. generalize (pos_bound x). lra.
  Qed.

  Lemma eleb_total : forall x y : enum, eleb x y = true \/ eleb y x = true.
  Proof. intros. rewrite !eleb_pos. lra. Qed.
  Lemma eleb_trans : forall x y z : enum, eleb x y = true -> eleb y z = true -> eleb x z = true.
  Proof. intros x y z. rewrite !eleb_pos. lra. Qed.

  Lemma inv_real_ok : forall vs, wf_b (BReal vs) -> all_fin vs ->
    exists r, inv_real io vs = Ok r /\ inv_spec (PB (BReal vs)) r.
  Proof.
    intros vs (ND & NE) F. unfold inv_real.
    pose proof (sort_sorted eleb eleb_total eleb_trans vs) as S. pose proof (sort_perm eleb vs) as P.
    destruct (sort eleb vs) as [|x l] eqn:E.
    { apply Permutation_sym, Permutation_nil in P. tauto. }
    assert (F' : all_fin (x :: l)) by (eapply Permutation_Forall; eauto).
    assert (ND' : NoDup (map eR (x :: l))) by (eapply Permutation_NoDup; [apply Permutation_map; eauto|auto]).
    inversion F'; subst.
    destruct (gaps_ok l x H1 H2 S ND') as (g & Eg & Wg & Ng & Dg & Mg).
    unfold Ropen. destruct (Interval_ok NInf x false true) as (i & -> & F1 & F2 & F3 & F4 & W).
    { rewrite pos_NInf. lra. }
    cbn [bind]. rewrite Eg. cbn [bind].
    assert (Mi : forall v, iv_mem v i <-> -1 < ord v < pos x).
    { intros v. rewrite iv_mem_pm. unfold pm. rewrite F1, F2, F3, F4, pos_NInf. unfold Reqb.
      destruct (Req_EM_T (-1) (-1)); [|lra]. simpl. tauto. }
    assert (Ma : forall v, some_mem v (i :: g) <-> -1 < ord v < 1 /\ ~ In v (map eR vs)).
    { intros v.
      assert (EI : In v (map eR vs) <-> In v (map eR (x :: l))).
      { split; apply Permutation_in; apply Permutation_map; auto using Permutation_sym. }
      rewrite EI. split.
      - intros (k & [<-|Hk] & H).
        + apply Mi in H. split; [lra|]. intros [G|G].
          * subst v. fold (pos x) in H. lra.
          * apply in_map_iff in G. destruct G as (z & <- & Hz). fold (pos z) in H.
            inversion S as [|? ? S3 S4]; subst. rewrite Forall_forall in S3. apply S3 in Hz. apply eleb_pos in Hz. lra.
        + assert (G : some_mem v g) by (exists k; auto). apply Mg in G. destruct G as (G1 & G2).
          split; [lra|]. intros [G|G]; [|tauto]. subst v. fold (pos x) in G1. lra.
      - intros (H & NI). destruct (Rtotal_order (ord v) (pos x)) as [G|[G|G]].
        + exists i. split; [now left|]. apply Mi. lra.
        + exfalso. apply NI. left. symmetry. now apply ord_inj.
        + destruct (proj2 (Mg v)) as (k & Hk & Hv).
          { split; [lra|]. intros Q. apply NI. now right. }
          exists k. split; [now right|auto]. }
    assert (PO : pieces_ok (map BInt (i :: g))).
    { unfold pieces_ok. ands.
      - apply Forall_forall. intros b Hb. apply in_map_iff in Hb. destruct Hb as (k & <- & Hk).
        destruct Hk as [<-|Hk]; [exact W|]. rewrite Forall_forall in Wg. now apply Wg.
      - rewrite filter_map_BInt by reflexivity. simpl. lia.
      - rewrite filter_map_BInt by reflexivity. simpl. lia.
      - apply FOP_map. apply FOP_cons. split; auto. apply Forall_forall. intros k Hk [v|] H H'; [|exact H].
        simpl in *. apply Mi in H. assert (G : some_mem v g) by (exists k; auto). apply Mg in G. lra. }
    assert (L : (2 <= List.length (map (BInt (N:=N)) (i :: g)))%nat).
    { destruct g; [tauto|]. simpl. lia. }
    exists (PUnion (map BInt (i :: g))). split.
    - apply Union_ok; auto.
      + clear. induction (i :: g); simpl; congruence.
      + apply Forall_forall. intros s Hs. apply in_map_iff in Hs. now destruct Hs as (k & <- & _).
    - unfold inv_spec. ands.
      + now apply wf_of_pieces.
      + cbn [real_set]. apply Forall_forall. intros b Hb. apply in_map_iff in Hb. now destruct Hb as (k & <- & _).
      + intros v (b & Hb & Hv). apply in_map_iff in Hb. destruct Hb as (k & <- & Hk).
        destruct v as [v|]; [|now destruct Hv]. cbn [mem]. rewrite bmem_real.
        assert (G : some_mem v (i :: g)) by (exists k; auto). apply Ma in G. tauto.
      + intros v Hv. cbn [mem] in Hv. rewrite bmem_real in Hv.
        destruct (proj2 (Ma (Fin v))) as (k & Hk & Hkv); [split; [apply ord_Fin|auto]|].
        exists (BInt k). split; [now apply in_map|exact Hkv].
  Qed.

  (** with an infinite point the complement of a finite set cannot be built *)
  Lemma inv_real_inf : forall vs, wf_b (BReal vs) -> ~ all_fin vs -> inv_real io vs = Raise AssertionError.
  Proof.
    intros vs (ND & NE) F. unfold inv_real.
    pose proof (sort_sorted eleb eleb_total eleb_trans vs) as S. pose proof (sort_perm eleb vs) as P.
    destruct (sort eleb vs) as [|x l] eqn:E.
    { apply Permutation_sym, Permutation_nil in P. tauto. }
    assert (F' : ~ all_fin (x :: l)).
    { intros H. apply F. eapply Permutation_Forall; [apply Permutation_sym; eauto|exact H]. }
    assert (ND' : NoDup (map eR (x :: l))) by (eapply Permutation_NoDup; [apply Permutation_map; eauto|auto]).
    unfold Ropen. rewrite Interval_R. destruct (Rlt_dec (pos NInf) (pos x)) as [L|L]; [|reflexivity].
    rewrite pos_NInf in L. cbn [bind].
    assert (G : forall l x, -1 < pos x -> sorted eleb (x :: l) -> NoDup (map eR (x :: l)) -> ~ all_fin (x :: l) ->
      gaps (N:=N) x l = Raise AssertionError).
    { clear. induction l as [|y l IH]; intros x L S ND F; simpl.
      - unfold Lopen. rewrite Interval_R, pos_PInf. destruct (Rlt_dec _ _) as [G|G]; [|reflexivity].
        exfalso. apply F. constructor; [lra|constructor].
      - unfold open_. rewrite Interval_R. destruct (Rlt_dec _ _) as [G|G]; [|reflexivity]. cbn [bind].
        inversion S; inversion ND; subst. rewrite IH; auto; [lra|].
        intros Q. apply F. constructor; auto. inversion Q; subst. lra. }
    rewrite G; auto.
  Qed.

  Definition finite_b b : Prop := match b with BReal vs => all_fin vs | _ => True end.
  (** ~ of the pieces of a set of numbers *)
  Lemma inv_b_ok : forall b r, wf_b b -> real_b b -> inv_b io b = Ok r -> inv_spec (PB b) r.
  Proof.
    intros [vs f|vs|i] r W R H; [now destruct R| |]; simpl in H.
    - destruct (Forall_dec (fun x : enum => -1 < pos x < 1)
        (fun x => match Rlt_dec (-1) (pos x), Rlt_dec (pos x) 1 with
                  | left p, left q => left (conj p q)
                  | right p, _ => right (fun h => p (proj1 h))
                  | _, right q => right (fun h => q (proj2 h)) end) vs) as [F|F].
      + destruct (inv_real_ok vs W F) as (r' & E & S). rewrite H in E. injection E as <-. exact S.
      + rewrite inv_real_inf in H; auto. discriminate.
    - destruct (inv_iv_ok i W) as (r' & E & S). rewrite H in E. injection E as <-. exact S.
  Qed.

  Lemma reduce_pand_inv : forall (l : list (bset N)) l' r,
    Forall2 (fun b s => inv_spec (PB b) s) l l' -> reduceM (pand io) l' = Ok r ->
    wf r /\ real_set r /\ (forall v, mem v r -> ~ mem_list v l) /\
    (forall x : R, ~ mem_list (RNum (Fin x)) l -> mem (RNum (Fin x)) r).
  Proof.
    intros [|b l] l' r F H; inversion F; subst; simpl in H; [discriminate|].
    clear F. rename y into s. rename l'0 into l'.
    assert (G : forall l0 s, wf s -> real_set s ->
      (forall v, mem v s -> ~ mem_list v l0) ->
      (forall x : R, ~ mem_list (RNum (Fin x)) l0 -> mem (RNum (Fin x)) s) ->
      foldM (pand io) l' s = Ok r ->
      wf r /\ real_set r /\ (forall v, mem v r -> ~ mem_list v (l0 ++ l)) /\
      (forall x : R, ~ mem_list (RNum (Fin x)) (l0 ++ l) -> mem (RNum (Fin x)) r)).
    { clear -H4. induction H4 as [|c t l l' H _ IH]; intros l0 s W R S1 S2 F; simpl in F.
      - injection F as <-. rewrite app_nil_r. auto.
      - inv_bind F. destruct H as (Ht1 & Ht2 & Ht3 & Ht4).
        apply pand_spec in E; auto. destruct E as (E1 & E2 & E3 & E4).
        assert (A : forall v, mem_list v (l0 ++ [c]) <-> mem_list v l0 \/ bmem v c).
        { intros v. unfold mem_list. split.
          - intros (d & Hd & Hv). apply in_app_iff in Hd. destruct Hd as [Hd|[<-|[]]]; eauto.
          - intros [(d & Hd & Hv)|Hv]; [exists d|exists c]; rewrite in_app_iff; simpl; auto. }
        replace (l0 ++ c :: l) with ((l0 ++ [c]) ++ l) by (now rewrite <- app_assoc).
        apply (IH (l0 ++ [c]) r0); auto.
        + intros v Hv. rewrite A. apply E2 in Hv. destruct Hv as (G1 & G2).
          apply S1 in G1. apply Ht3 in G2. simpl in G2. tauto.
        + intros x Hx. rewrite A in Hx. apply E3; [exact I| |].
          * apply S2. tauto.
          * apply Ht4. simpl. tauto. }
    destruct H2 as (W & R & S1 & S2). apply (G [b] s); auto.
    - intros v Hv (c & [<-|[]] & Hc). apply (S1 v Hv). exact Hc.
    - intros x Hx. apply S2. intros Q. apply Hx. exists b. simpl; auto.
  Qed.

  Lemma pinv_real_spec : forall s r, wf s -> real_set s -> pinv io s = Ok r -> inv_spec s r.
  Proof.
    intros [|b|u] r W R H; unfold pinv in H.
    - inv_bind H. injection H as <-. rename r0 into i. unfold Interval_ in E. simpl in E.
      injection E as <-. unfold inv_spec. ands; simpl; auto.
      + unfold wf_iv. simpl. auto.
      + intros x _. unfold iv_mem. simpl. auto.
    - now apply inv_b_ok.
    - inv_bind H. destruct (u_values_facts u W) as (W1 & W2 & W3 & W4).
      apply mapM_Forall2 in E. specialize (W3 R).
      assert (F : Forall2 (fun b s => inv_spec (PB b) s) (u_values io u) r0).
      { clear -E W1 W3. induction E; constructor; inversion W1; inversion W3; subst; auto.
        now apply inv_b_ok. }
      destruct (reduce_pand_inv _ _ _ F H) as (A & B & C & D).
      unfold inv_spec. ands; auto.
      + intros v Hv. rewrite <- W2. auto.
      + intros x Hx. apply D. rewrite W2. auto.
  Qed.

  (** complement of a set of strings, within the strings *)
  Lemma pinv_nom_ok : forall vs f, wf_b (N:=N) (BNom vs f) ->
    exists r, pinv io (PB (BNom vs f)) = Ok r /\ wf r /\
      match r with PEmpty | PB (BNom _ _) => True | _ => False end /\
      (forall str, mem (RStr str) r <-> ~ bmem (N:=N) (RStr str) (BNom vs f)).
  Proof.
    intros vs f (ND & NE). simpl pinv. unfold inv_nom. destruct vs as [|x vs].
    - destruct NE as [NE|NE]; [tauto|]. rewrite NE. simpl. exists PEmpty. ands; simpl; auto.
      intros str. rewrite NE. simpl. tauto.
    - unfold FiniteNominal. cbn [is_nil negb orb passert bind]. rewrite dedup_string_id by exact ND.
      eexists. split; [reflexivity|]. cbn [wf]. split; [split; auto; left; discriminate|].
      split; [exact I|]. intros str. cbn [mem bmem]. destruct (truthy f) eqn:Ef; cbn [negb truthy].
      + destruct (in_dec string_dec str (x :: vs)); tauto.
      + tauto.
  Qed.
End Proofs.
