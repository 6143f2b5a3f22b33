(** Union of sets. *)
From Coq Require Import List Bool String Permutation ZArith Reals Lra Lia.
From Verif Require Import Base Num Sets SetSpec SetIv SetProofs SetIvOr.
Import ListNotations.
Local Open Scope R_scope.

(** split on every flag and comparison, then linear arithmetic *)
Ltac pml := intros; unfold Reqb in *;
  repeat match goal with
  | |- context [Req_EM_T ?x ?y] => destruct (Req_EM_T x y)
  | H : context [Req_EM_T ?x ?y] |- _ => destruct (Req_EM_T x y)
  | |- context [if ?c then _ else _] => destruct c
  | H : context [if ?c then _ else _] |- _ => destruct c
  end; lra.

Ltac ands := repeat match goal with |- _ /\ _ => split end.

Section Proofs.
  Context {N : numsys} (io : iterorder N).
  Notation enum := (ext (num N)).
  Implicit Types (i j s x : interval N).

  Definition after s x := pos (iv_b s) <= pos (iv_a x).
  (** [s] ends before [x] begins *)
  Definition sep s x := pos (iv_b s) < pos (iv_a x) \/
    (pos (iv_b s) = pos (iv_a x) /\ iv_ro s = true).

  Lemma iv_or_ok : forall s x, wf_iv s -> wf_iv x ->
    (iv_or io s x = Ok (PUnion [BInt s; BInt x]) /\ disjoint_b (BInt s) (BInt x) /\
       (sep s x \/ after x s)) \/
    (exists j, iv_or io s x = Ok (PB (BInt j)) /\ wf_iv j /\
      (pos (iv_a j) = pos (iv_a s) \/ pos (iv_a j) = pos (iv_a x)) /\
      (forall v, iv_mem v j <-> iv_mem v s \/ iv_mem v x)).
  Proof.
    intros s x Hs Hx. unfold iv_or.
    destruct (iv_eqb s x) eqn:E.
    { right. exists s. split; [reflexivity|]. split; [assumption|]. split; [now left|].
      intros v. generalize (iv_eqb_mem s x E v). tauto. }
    destruct (iv_and_ok x s Hx Hs) as (r & -> & Wr & NU & _ & Hr). simpl bind.
    destruct (is_empty r) eqn:Er; cbn [andb].
    - destruct r; try discriminate. clear Er.
      assert (D : disjoint_b (BInt s) (BInt x)).
      { intros v H1 H2. apply (proj2 (Hr v)). auto. }
      assert (G : (after s x \/ after x s) /\
                  (pos (iv_a s) <= pos (iv_b x) -> pos (iv_a x) <= pos (iv_b s) ->
                   (after s x /\ pos (iv_b s) = pos (iv_a x)) \/
                   (after x s /\ pos (iv_b x) = pos (iv_a s)))).
      { assert (G : after s x \/ after x s).
        { unfold after. destruct (Rle_or_lt (pos (iv_b s)) (pos (iv_a x))); auto.
          destruct (Rle_or_lt (pos (iv_b x)) (pos (iv_a s))); auto. exfalso.
          (* a point strictly inside both *)
          assert (Hin : forall a b : enum, pos a < pos b -> exists v, pos a < ord v < pos b).
          { intros a b Hab.
            assert (W : wf_iv (mkIv a b true true)).
            { apply wf_iv_pos; simpl; auto. }
            destruct (iv_inhabited _ W) as (v & Hv). apply iv_mem_pm in Hv. simpl in Hv.
            exists (Fin v). exact Hv. }
          apply wf_iv_cases in Hs. apply wf_iv_cases in Hx.
          set (m := if Rle_dec (pos (iv_a s)) (pos (iv_a x)) then iv_a x else iv_a s).
          set (M := if Rle_dec (pos (iv_b s)) (pos (iv_b x)) then iv_b s else iv_b x).
          assert (Hm : pos (iv_a s) <= pos m /\ pos (iv_a x) <= pos m).
          { unfold m. destruct (Rle_dec (pos (iv_a s)) (pos (iv_a x))); lra. }
          assert (HM : pos M <= pos (iv_b s) /\ pos M <= pos (iv_b x)).
          { unfold M. destruct (Rle_dec (pos (iv_b s)) (pos (iv_b x))). all: split; lra. }
          assert (HmM : pos m < pos M).
          { unfold m, M. destruct (Rle_dec (pos (iv_a s)) _), (Rle_dec (pos (iv_b s)) _); lra. }
          destruct (Hin m M HmM) as (v & Hv).
          apply (D (RNum v)); simpl; apply iv_mem_pm; unfold pm;
            split; match goal with |- if ?c then _ else _ => destruct c end; lra. }
        split; [exact G|]. unfold after in *. intros. lra. }
      destruct G as (G & G').
      destruct (iv_contains (iv_a s) x) eqn:C1; cbn [negb andb].
      2: destruct (iv_contains (iv_b s) x) eqn:C2; cbn [negb andb].
      3: destruct (iv_contains (iv_a x) s) eqn:C3; cbn [negb andb].
      4: destruct (iv_contains (iv_b x) s) eqn:C4; cbn [negb andb].
      5: { left. split; [|split; [assumption|]].
           2: { destruct G as [G|G]; [left|now right]. unfold sep, after in *.
                destruct (Req_dec (pos (iv_b s)) (pos (iv_a x))) as [Q|Q]; [right|left; lra].
                split; auto. destruct (iv_ro s) eqn:R; auto. exfalso.
                enough (iv_contains (iv_a x) s = true) by congruence.
                apply iv_contains_R. unfold pm. rewrite R. apply wf_iv_cases in Hs.
                destruct (iv_lo s); lra. }
           apply Union_ok; [reflexivity|repeat (constructor; simpl; auto)|now apply disjoint_pieces2|simpl; lia]. }
      all: right; apply hull_ok; auto.
      all: apply wf_iv_cases in Hs; apply wf_iv_cases in Hx; unfold after in *.
      all: repeat match goal with
        | H : iv_contains _ _ = true |- _ => apply iv_contains_R in H; unfold pm in H; destruct H end.
      all: repeat match goal with
        | H : if ?c then _ else _ |- _ => destruct c eqn:? end.
      all: try lra.
      all: try (intros; cbn [andb]; rewrite ?andb_false_r; try reflexivity; exfalso; lra).
      (* remaining: the intervals touch, one of the touching ends is closed *)
      all: intros Heq; match goal with |- ?p && ?q = false => destruct p eqn:?, q eqn:?; try reflexivity end.
      all: exfalso; try congruence; try lra.
    - right. destruct r as [|b|]; try discriminate; try (now destruct NU).
      destruct (b_inhabited b Wr) as (v & Hv). apply Hr in Hv. destruct Hv as (V1 & V2).
      destruct v as [v|]; [|now destruct V1]. simpl in V1, V2.
      apply iv_mem_pm in V1, V2. unfold pm in *.
      apply hull_ok; auto.
      all: apply wf_iv_cases in Hs; apply wf_iv_cases in Hx.
      all: destruct (iv_lo s), (iv_ro s), (iv_lo x), (iv_ro x); try lra; try reflexivity.
      all: intros; exfalso; lra.
  Qed.

  Lemma NoDup_map_filter : forall (f : enum -> bool) vs, NoDup (map eR vs) -> NoDup (map eR (filter f vs)).
  Proof.
    induction vs as [|w vs IH]; simpl; intros H; auto. inversion H; subst.
    destruct (f w); simpl; auto. constructor; auto.
    rewrite in_map_iff in *. intros (y & E & I). apply filter_In in I. apply H2. exists y. tauto.
  Qed.

  Lemma pieces_real_iv : forall (ws : list enum) j, NoDup (map eR ws) -> ws <> [] -> wf_iv j ->
    disjoint_b (BReal ws) (BInt j) -> pieces_ok [BReal ws; BInt j].
  Proof.
    intros ws j H1 H2 H3 H4. unfold pieces_ok. ands; simpl; auto.
    - constructor; [split; assumption|]. constructor; [assumption|constructor].
    - constructor; [|repeat constructor]. constructor; [assumption|constructor].
  Qed.

  Lemma or_real_iv_ok : forall vs i, NoDup (map eR vs) -> wf_iv i -> exists ws j,
    or_real_iv io vs i = Ok (match ws with [] => PB (BInt j) | _ => PUnion [BReal ws; BInt j] end) /\
    wf_iv j /\ NoDup (map eR ws) /\ (forall w, In w ws -> In w vs) /\ disjoint_b (BReal ws) (BInt j) /\
    (forall v, iv_mem v i -> iv_mem v j) /\
    (forall v, iv_mem v j -> iv_mem v i \/ In v (map eR vs)) /\
    (forall r, In (Fin r) (map eR vs) -> iv_mem (Fin r) j \/ In (Fin r) (map eR ws)).
  Proof.
    intros vs i ND W. unfold or_real_iv.
    (* first step: close the left end *)
    set (st1 := if inb eeqb (iv_a i) vs && iv_lo i then _ else _).
    assert (S1 : exists vs1 i1, st1 = Ok (vs1, i1) /\ wf_iv i1 /\ NoDup (map eR vs1) /\
      pos (iv_b i1) = pos (iv_b i) /\ iv_ro i1 = iv_ro i /\
      (forall w, In w vs1 -> In w vs) /\
      (forall v, iv_mem v i -> iv_mem v i1) /\
      (forall v, iv_mem v i1 -> iv_mem v i \/ In v (map eR vs)) /\
      (forall r, In (Fin r) (map eR vs) -> iv_mem (Fin r) i1 \/ In (Fin r) (map eR vs1))).
    { unfold st1. destruct (inb eeqb (iv_a i) vs && iv_lo i) eqn:E.
      - apply andb_true_iff in E. destruct E as (E1 & E2). apply inb_eeqb in E1.
        destruct (Interval_ok (iv_a i) (iv_b i) false (iv_ro i)) as (i1 & -> & F1 & F2 & F3 & F4 & W1).
        { apply wf_iv_cases in W. tauto. }
        simpl. pose proof W as W'. apply wf_iv_pos in W'. destruct W' as (Wa & Wb & Wc).
        assert (F5 : iv_ro i1 = iv_ro i).
        { rewrite F4. unfold Reqb. destruct (Req_EM_T _ _) as [Q|]; [|now rewrite orb_false_r].
          rewrite (Wc Q). reflexivity. }
        exists (remove_num (iv_a i) vs), i1. rewrite F5, F2.
        split; [reflexivity|]. split; [assumption|].
        split; [now apply NoDup_map_filter|].
        split; [reflexivity|]. split; [reflexivity|].
        split; [intros w Hw; apply filter_In in Hw; tauto|].
        split; [|split].
        + intros v. rewrite !iv_mem_pm. unfold pm. rewrite F1, F2, F3, F5, E2.
          simpl. pml.
        + intros v. rewrite !iv_mem_pm. unfold pm. rewrite F1, F2, F3, F5, E2.
          simpl. unfold Reqb. intros Hv.
          destruct (Req_dec (ord v) (pos (iv_a i))) as [Q|Q].
          * right. apply ord_inj in Q. subst v. assumption.
          * left. pml.
        + intros r Hr. destruct (Req_dec (ord (Fin r)) (pos (iv_a i))) as [Q|Q].
          * left. rewrite iv_mem_pm. unfold pm. rewrite F1, F2, F3, F5. simpl orb.
            assert (-1 < pos (iv_a i) < 1) by (rewrite <- Q; apply ord_Fin).
            pml.
          * right. apply in_map_iff in Hr. destruct Hr as (y & Ey & Hy). apply in_map_iff.
            exists y. split; auto. apply filter_In. split; auto.
            apply negb_true_iff. apply eeqb_pos_f. unfold pos at 2. rewrite Ey. auto.
      - exists vs, i. ands; auto. }
    destruct S1 as (vs1 & i1 & -> & W1 & ND1 & Fb & Fr & S1a & S1b & S1c & S1d). cbn [bind].
    set (st2 := if inb eeqb (iv_b i1) vs1 && iv_ro i1 then _ else _).
    assert (S2 : exists vs2 i2, st2 = Ok (vs2, i2) /\ wf_iv i2 /\ NoDup (map eR vs2) /\
      (forall w, In w vs2 -> In w vs1) /\
      (forall v, iv_mem v i1 -> iv_mem v i2) /\
      (forall v, iv_mem v i2 -> iv_mem v i1 \/ In v (map eR vs1)) /\
      (forall r, In (Fin r) (map eR vs1) -> iv_mem (Fin r) i2 \/ In (Fin r) (map eR vs2))).
    { unfold st2. destruct (inb eeqb (iv_b i1) vs1 && iv_ro i1) eqn:E.
      - apply andb_true_iff in E. destruct E as (E1 & E2). apply inb_eeqb in E1.
        destruct (Interval_ok (iv_a i1) (iv_b i1) (iv_lo i1) false) as (i2 & -> & F1 & F2 & F3 & F4 & W2).
        { apply wf_iv_cases in W1. tauto. }
        simpl. pose proof W1 as W'. apply wf_iv_pos in W'. destruct W' as (Wa & Wb & Wc).
        assert (F5 : iv_lo i2 = iv_lo i1).
        { rewrite F3. unfold Reqb. destruct (Req_EM_T _ _) as [Q|]; [|now rewrite orb_false_r].
          rewrite (Wb Q). reflexivity. }
        exists (remove_num (iv_b i1) vs1), i2.
        split; [reflexivity|]. split; [assumption|].
        split; [now apply NoDup_map_filter|].
        split; [intros w Hw; apply filter_In in Hw; tauto|].
        split; [|split].
        + intros v. rewrite !iv_mem_pm. unfold pm. rewrite F1, F2, F4, F5, E2.
          simpl. pml.
        + intros v. rewrite !iv_mem_pm. unfold pm. rewrite F1, F2, F4, F5, E2.
          simpl. unfold Reqb. intros Hv.
          destruct (Req_dec (ord v) (pos (iv_b i1))) as [Q|Q].
          * right. apply ord_inj in Q. subst v. assumption.
          * left. pml.
        + intros r Hr. destruct (Req_dec (ord (Fin r)) (pos (iv_b i1))) as [Q|Q].
          * left. rewrite iv_mem_pm. unfold pm. rewrite F1, F2, F4, F5. simpl orb.
            assert (-1 < pos (iv_b i1) < 1) by (rewrite <- Q; apply ord_Fin).
            pml.
          * right. apply in_map_iff in Hr. destruct Hr as (y & Ey & Hy). apply in_map_iff.
            exists y. split; auto. apply filter_In. split; auto.
            apply negb_true_iff. apply eeqb_pos_f. unfold pos at 2. rewrite Ey. auto.
      - exists vs1, i1. ands; auto. }
    destruct S2 as (vs2 & i2 & -> & W2 & ND2 & S2a & S2b & S2c & S2d). cbn [bind].
    set (ws := filter (fun v => negb (iv_contains v i2)) vs2).
    assert (NDw : NoDup (map eR ws)) by now apply NoDup_map_filter.
    assert (Dw : disjoint_b (BReal ws) (BInt i2)).
    { intros [v|s] H1 H2; [|exact H1]. destruct H1 as (w & Hw & <-). apply filter_In in Hw.
      destruct Hw as (_ & Hw). apply negb_true_iff in Hw. simpl in H2.
      apply iv_mem_pm in H2. apply iv_contains_R in H2. congruence. }
    exists ws, i2. split; [|repeat (split; [assumption|])].
    - destruct ws as [|w ws'] eqn:Ew; [reflexivity|]. rewrite <- Ew in *. unfold FiniteReal.
      rewrite Ew at 1. cbn [is_nil negb passert bind]. rewrite dedup_num_id by assumption.
      rewrite Ew. apply Union_ok; [reflexivity|repeat (constructor; simpl; auto)| |simpl; lia].
      rewrite <- Ew. apply pieces_real_iv; auto. congruence.
    - split; [|split; [|split; [|split]]]; auto.
      + intros w Hw. apply filter_In in Hw. apply S1a, S2a. tauto.
      + intros v Hv. destruct (S2c v Hv) as [H|H]; auto. right.
        apply in_map_iff in H. destruct H as (y & <- & Hy). apply in_map. auto.
      + intros r Hr. destruct (S1d r Hr) as [H|H]; auto. destruct (S2d r H) as [H'|H']; auto.
        apply in_map_iff in H'. destruct H' as (y & Ey & Hy).
        destruct (iv_contains y i2) eqn:C.
        * left. rewrite iv_mem_pm. apply iv_contains_R in C. unfold pos at 1 in C. now rewrite Ey in C.
        * right. rewrite <- Ey. apply in_map. apply filter_In. now rewrite C.
  Qed.

  (** ** Merging intervals *)
  Lemma iv_leb_total : forall i j, iv_leb i j = true \/ iv_leb j i = true.
  Proof. intros. unfold iv_leb. rewrite !eleb_pos. lra. Qed.
  Lemma iv_leb_trans : forall i j k : interval N, iv_leb i j = true -> iv_leb j k = true -> iv_leb i k = true.
  Proof. intros i j k. unfold iv_leb. rewrite !eleb_pos. lra. Qed.

  Notation ivd := (fun i j => disjoint_b (BInt i) (BInt j)).
  Definition some_mem v (l : list (interval N)) := exists i, In i l /\ iv_mem v i.

  Lemma sep_le : forall d x y : interval N, sep d x -> pos (iv_a x) <= pos (iv_a y) -> sep d y.
  Proof.
    unfold sep. intros d x y [H|(H & R)] L; [left; lra|].
    destruct (Req_dec (pos (iv_b d)) (pos (iv_a y))); [right|left]; auto. lra.
  Qed.
  Lemma sep_disjoint : forall s x, sep s x -> disjoint_b (BInt s) (BInt x).
  Proof.
    intros s x S [v|] H1 H2; [|exact H1]. simpl in *. apply iv_mem_pm in H1, H2.
    unfold pm, sep in *. destruct H1 as (_ & H1), H2 as (H2 & _).
    destruct S as [S|(S & R)]; [|rewrite R in H1];
    [destruct (iv_ro s)|]; destruct (iv_lo x); lra.
  Qed.

  Lemma merge_blocks_ok : forall l last done,
    wf_iv last -> Forall wf_iv l -> Forall wf_iv done -> sorted iv_leb (last :: l) ->
    Forall (fun d => sep d last) done -> ForallOrdPairs ivd done ->
    exists bs, merge_blocks io last done l = Ok bs /\ Forall wf_iv bs /\ bs <> [] /\
      ForallOrdPairs ivd bs /\
      (forall v, some_mem v bs <-> some_mem v done \/ iv_mem v last \/ some_mem v l).
  Proof.
    induction l as [|i l IH]; intros last done W Wl Wd S Sep D.
    - exists (rev (last :: done)). split; [reflexivity|].
      split; [apply Forall_rev; now constructor|].
      split; [simpl; intros E; apply app_eq_nil in E; destruct E; discriminate|].
      split.
      + apply FOP_rev; [intros ? ?; apply disjoint_b_sym|].
        apply FOP_cons. split; auto. eapply Forall_impl; [|exact Sep].
        intros d Hd. apply disjoint_b_sym. now apply sep_disjoint.
      + intros v. unfold some_mem. split.
        * intros (j & Hj & Hv). apply in_rev in Hj. destruct Hj as [<-|Hj]; eauto.
        * intros [(j & Hj & Hv)|[H|(j & [] & _)]].
          -- exists j. split; auto. apply -> in_rev. now right.
          -- exists last. split; auto. apply -> in_rev. now left.
    - inversion S as [|? ? S1 S2]; subst. inversion S1 as [|? ? S3 S4]; subst.
      inversion Wl; subst. inversion S2 as [|? ? S5 S6]; subst.
      unfold iv_leb in S3. apply eleb_pos in S3.
      pose proof (wf_iv_cases _ W) as Wc. pose proof (wf_iv_cases _ H1) as Wi.
      simpl. destruct (iv_or_ok last i W H1) as [(-> & Dj & Sj)|(j & -> & Wj & Aj & Mj)]; simpl.
      + destruct Sj as [Sj|Sj]; [|unfold after in Sj; lra].
        destruct (IH i (last :: done)) as (bs & E1 & E2 & E3 & E4 & E5); auto.
        * constructor; auto. eapply Forall_impl; [|exact Sep].
          intros d Hd. eapply sep_le; [exact Hd|lra].
        * apply FOP_cons. split; auto. eapply Forall_impl; [|exact Sep].
          intros d Hd. apply disjoint_b_sym. now apply sep_disjoint.
        * exists bs. repeat (split; [assumption|]). intros v. rewrite E5. unfold some_mem. split.
          -- intros [(k & [<-|Hk] & Hv)|[H|(k & Hk & Hv)]]; eauto.
             ++ right; right. exists i; simpl; auto.
             ++ right; right. exists k; simpl; auto.
          -- intros [(k & Hk & Hv)|[H|(k & [<-|Hk] & Hv)]]; eauto.
             ++ left. exists k; simpl; auto.
             ++ left. exists last; simpl; auto.
      + destruct (IH j done) as (bs & E1 & E2 & E3 & E4 & E5); auto.
        * constructor; auto. rewrite Forall_forall in *. intros k Hk.
          specialize (S4 k Hk). specialize (S5 k Hk). unfold iv_leb in *.
          rewrite eleb_pos in *. lra.
        * eapply Forall_impl; [|exact Sep]. intros d Hd. eapply sep_le; [exact Hd|lra].
        * exists bs. repeat (split; [assumption|]). intros v. rewrite E5. unfold some_mem. rewrite Mj. split.
          -- intros [H|[[H|H]|(k & Hk & Hv)]]; auto.
             ++ right; right. exists i; simpl; auto.
             ++ right; right. exists k; simpl; auto.
          -- intros [H|[H|(k & [<-|Hk] & Hv)]]; auto.
             right; right. exists k; simpl; auto.
  Qed.

  Lemma union_intervals_ok : forall l, l <> [] -> Forall wf_iv l ->
    exists bs, union_intervals io l = Ok bs /\ Forall wf_iv bs /\ bs <> [] /\
      ForallOrdPairs ivd bs /\ (forall v, some_mem v bs <-> some_mem v l).
  Proof.
    intros l Hl W. unfold union_intervals.
    pose proof (sort_sorted iv_leb iv_leb_total iv_leb_trans l) as S.
    pose proof (sort_perm iv_leb l) as P.
    destruct (sort iv_leb l) as [|i l'].
    - apply Permutation_sym, Permutation_nil in P. tauto.
    - assert (W' : Forall wf_iv (i :: l')) by (eapply Permutation_Forall; eauto).
      inversion W'; subst.
      destruct (merge_blocks_ok l' i []) as (bs & E1 & E2 & E3 & E4 & E5); auto; try constructor.
      exists bs. repeat (split; [assumption|]). intros v. rewrite E5. unfold some_mem. split.
      + intros [(k & [] & _)|[H|(k & Hk & Hv)]].
        * exists i. split; auto. eapply Permutation_in; [symmetry; exact P|now left].
        * exists k. split; auto. eapply Permutation_in; [symmetry; exact P|now right].
      + intros (k & Hk & Hv). eapply Permutation_in in Hk; [|exact P].
        destruct Hk as [<-|Hk]; eauto.
  Qed.

  (** ** Absorbing isolated points *)
  Definition fin_ok (f : option (list enum)) : Prop :=
    match f with None => True | Some vs => NoDup (map eR vs) /\ vs <> [] end.
  Definition fin_vals (f : option (list enum)) : list enum :=
    match f with None => [] | Some vs => vs end.

  (** every interval of the result grows one of the input; points left over are outside
      all of them *)
  Lemma absorb_ok : forall l f, Forall wf_iv l -> fin_ok f -> exists l' f',
    absorb io l f = Ok (l', f') /\ Forall wf_iv l' /\ fin_ok f' /\ List.length l' = List.length l /\
    (forall w, In w (fin_vals f') -> In w (fin_vals f)) /\
    (forall w, In w (fin_vals f') -> ~ some_mem (eR w) l') /\
    (forall v, some_mem v l -> some_mem v l') /\
    (forall v, some_mem v l' -> some_mem v l \/ In v (map eR (fin_vals f))) /\
    (forall r, In (Fin r) (map eR (fin_vals f)) ->
       some_mem (Fin r) l' \/ In (Fin r) (map eR (fin_vals f'))).
  Proof.
    induction l as [|i l IH]; intros f W F; simpl.
    - exists [], f. ands; auto. intros w _ (k & [] & _).
    - inversion W; subst.
      assert (G : exists ws j, iv_or_finite io i f =
          Ok (match ws with [] => PB (BInt j) | _ => PUnion [BReal ws; BInt j] end) /\
        wf_iv j /\ NoDup (map eR ws) /\ (forall w, In w ws -> In w (fin_vals f)) /\
        disjoint_b (BReal ws) (BInt j) /\
        (forall v, iv_mem v i -> iv_mem v j) /\
        (forall v, iv_mem v j -> iv_mem v i \/ In v (map eR (fin_vals f))) /\
        (forall r, In (Fin r) (map eR (fin_vals f)) -> iv_mem (Fin r) j \/ In (Fin r) (map eR ws))).
      { destruct f as [vs|]; simpl.
        - apply or_real_iv_ok; auto. apply F.
        - exists [], i. simpl. ands; auto; try constructor; try tauto.
          intros [v|] H; [|tauto]. destruct H as (y & [] & _). }
      destruct G as (ws & j & E & Wj & NDw & Sub & Dw & Grow & Snd & Cpl). rewrite E. simpl.
      set (f1 := match ws with [] => None | _ => Some ws end).
      assert (F1 : fin_ok f1) by (unfold f1; destruct ws; simpl; auto; split; auto; discriminate).
      assert (V1 : fin_vals f1 = ws) by (unfold f1; destruct ws; reflexivity).
      destruct (IH f1 H2 F1) as (l' & f' & E' & W' & F' & L' & Sub' & Out' & Grow' & Snd' & Cpl').
      rewrite V1 in *.
      exists (j :: l'), f'. split.
      { destruct ws as [|w0 ws0] eqn:Ew.
        - unfold f1 in E'. rewrite E'. reflexivity.
        - assert (P : pieces_ok [BReal (w0 :: ws0); BInt j]).
          { apply pieces_real_iv; auto. discriminate. }
          pose proof (u_intervals_perm io _ P) as Q. simpl in Q.
          apply Permutation_length_1_inv in Q. rewrite Q. simpl.
          unfold f1 in E'. rewrite E'. reflexivity. }
      split; [now constructor|]. split; [assumption|]. split; [simpl; congruence|].
      split; [auto|]. split; [|split; [|split]].
      + intros w Hw (k & [<-|Hk] & Hv).
        * apply (Dw (RNum (eR w))); auto. simpl. exists w. auto.
        * apply (Out' w Hw). exists k. auto.
      + intros v (k & [<-|Hk] & Hv).
        * exists j. simpl. auto.
        * destruct (Grow' v) as (k' & Hk' & Hv'); [exists k; auto|]. exists k'. simpl. auto.
      + intros v (k & [<-|Hk] & Hv).
        * destruct (Snd v Hv); auto. left. exists i. simpl; auto.
        * destruct (Snd' v) as [(k' & Hk' & Hv')|Hv']; [exists k; auto| |].
          -- left. exists k'. simpl. auto.
          -- right. apply in_map_iff in Hv'. destruct Hv' as (y & <- & Hy). apply in_map. auto.
      + intros r Hr. destruct (Cpl r Hr) as [H|H].
        * left. exists j. simpl; auto.
        * destruct (Cpl' r H) as [(k & Hk & Hv)|H']; auto. left. exists k. simpl; auto.
  Qed.

  Definition fin_bs (f : option (list enum)) : list (bset N) :=
    match f with None => [] | Some vs => [BReal vs] end.

  Lemma filter_map_BInt : forall (p : bset N -> bool) bs, (forall i, p (BInt i) = false) ->
    filter p (map BInt bs) = [].
  Proof. intros p bs H. induction bs; simpl; [reflexivity|]. now rewrite H. Qed.

  Lemma FOP_map : forall bs, ForallOrdPairs ivd bs -> ForallOrdPairs disjoint_b (map (BInt (N:=N)) bs).
  Proof.
    induction 1; simpl; constructor; auto. apply Forall_forall. intros b Hb.
    apply in_map_iff in Hb. destruct Hb as (i & <- & Hi). rewrite Forall_forall in H. now apply H.
  Qed.

  Lemma union_intervals_finite_ok : forall l f, l <> [] -> Forall wf_iv l -> fin_ok f ->
    exists blocks, union_intervals_finite io l f = Ok blocks /\ pieces_ok blocks /\ blocks <> [] /\
      Forall real_b blocks /\
      (forall v, (exists b, In b blocks /\ bmem (RNum v) b) -> some_mem v l \/ In v (map eR (fin_vals f))) /\
      (forall v, some_mem v l -> exists b, In b blocks /\ bmem (RNum v) b) /\
      (forall r, In (Fin r) (map eR (fin_vals f)) -> exists b, In b blocks /\ bmem (RNum (Fin r)) b).
  Proof.
    intros l f Hl W F. unfold union_intervals_finite.
    assert (G : exists l' f', match f with
      | None => do bs <- union_intervals io l; Ok (map BInt bs)
      | Some _ => do r <- absorb io l f; do bs <- union_intervals io (fst r);
         Ok (map BInt bs ++ match snd r with Some vs => [BReal vs] | None => [] end) end =
      (do bs <- union_intervals io l'; Ok (map BInt bs ++ fin_bs f')) /\
      l' <> [] /\ Forall wf_iv l' /\ fin_ok f' /\
      (forall w, In w (fin_vals f') -> In w (fin_vals f)) /\
      (forall w, In w (fin_vals f') -> ~ some_mem (eR w) l') /\
      (forall v, some_mem v l -> some_mem v l') /\
      (forall v, some_mem v l' -> some_mem v l \/ In v (map eR (fin_vals f))) /\
      (forall r, In (Fin r) (map eR (fin_vals f)) ->
         some_mem (Fin r) l' \/ In (Fin r) (map eR (fin_vals f')))).
    { destruct f as [vs|].
      - destruct (absorb_ok l (Some vs) W F) as (l' & f' & -> & W' & F' & L' & R).
        exists l', f'. simpl fst; simpl snd. split; [reflexivity|]. split; [|tauto].
        destruct l'; [|discriminate]. destruct l; [tauto|discriminate].
      - exists l, None. split.
        + unfold bind. destruct (union_intervals io l); simpl; [now rewrite app_nil_r|reflexivity].
        + ands; auto. }
    destruct G as (l' & f' & -> & Hl' & W' & F' & Sub & Out & Grow & Snd & Cpl).
    destruct (union_intervals_ok l' Hl' W') as (bs & -> & Wbs & Nbs & Dbs & Mbs). simpl.
    exists (map BInt bs ++ fin_bs f'). split; [reflexivity|].
    assert (MM : forall v, (exists b, In b (map BInt bs ++ fin_bs f') /\ bmem (RNum v) b) <->
      some_mem v l' \/ In v (map eR (fin_vals f'))).
    { intros v. rewrite <- Mbs. split.
      - intros (b & Hb & Hv). apply in_app_or in Hb. destruct Hb as [Hb|Hb].
        + apply in_map_iff in Hb. destruct Hb as (i & <- & Hi). left. exists i. auto.
        + right. destruct f' as [vs|]; simpl in Hb; [|tauto]. destruct Hb as [<-|[]].
          apply bmem_real in Hv. auto.
      - intros [(i & Hi & Hv)|Hv].
        + exists (BInt i). split; auto. apply in_or_app. left. now apply in_map.
        + destruct f' as [vs|]; simpl in Hv; [|tauto]. exists (BReal vs). split.
          * apply in_or_app. simpl; auto.
          * now apply bmem_real. }
    split; [|split; [|split; [|split; [|split]]]].
    - unfold pieces_ok; ands.
      + apply Forall_app. split.
        * apply Forall_forall. intros b Hb. apply in_map_iff in Hb. destruct Hb as (i & <- & Hi).
          rewrite Forall_forall in Wbs. now apply Wbs.
        * destruct f'; simpl; constructor; auto.
      + rewrite filter_app, filter_map_BInt by reflexivity. destruct f'; simpl; lia.
      + rewrite filter_app, filter_map_BInt by reflexivity. destruct f'; simpl; lia.
      + rewrite FOP_app by apply disjoint_b_sym. split; [now apply FOP_map|]. split; [destruct f'; repeat constructor|].
        intros b c Hb Hc. destruct f' as [vs|]; simpl in Hc; [|tauto]. destruct Hc as [<-|[]].
        apply in_map_iff in Hb. destruct Hb as (i & <- & Hi).
        intros [v|s] H1 H2; [|exact H1]. destruct H2 as (w & Hw & <-).
        apply (Out w Hw). apply Mbs. exists i. split; [assumption|exact H1].
    - destruct bs; [tauto|discriminate].
    - apply Forall_app. split.
      + apply Forall_forall. intros b Hb. apply in_map_iff in Hb. destruct Hb as (i & <- & Hi). exact I.
      + destruct f'; simpl; repeat constructor.
    - intros v Hv. apply MM in Hv. destruct Hv as [Hv|Hv]; auto.
      right. apply in_map_iff in Hv. destruct Hv as (y & <- & Hy). apply in_map. auto.
    - intros v Hv. apply MM. left. auto.
    - intros r Hr. apply MM. destruct (Cpl r Hr); auto.
  Qed.
End Proofs.
