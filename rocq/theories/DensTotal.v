(** When logpdf and constrain give a result. *)
From Coq Require Import List Bool String Reals Lra Lia ZArith QArith Qreals FunctionalExtensionality Permutation PeanoNat.
From Verif Require Import Base Num Sets SetSpec SetIv SetProofs SetOr SetOps SetAlg SetBuilt
  Poly Trans TransSpec TransFacts PolyProofs InvProofs InvMain EvProofs ArithProofs
  Dnf DnfSpec DnfProofs DnfUnion Logs Spe SpeSpec SpeFacts SpeRect LeafProofs LeafEvents LeafCond SpeCons LeafGiven MemoProofs NormSorts LogprobProofs SpeEq CondTypes SpeOps
  OpsProofs DensSpec DensProofs ConstrainProofs DensLimit DensPoint TotalProofs.
Import ListNotations.
Local Open Scope R_scope.

(** No atomic leaf is assigned, and no string of weight zero. *)
Definition answered {N : numsys} {S : logsys} {D : distsys N S} (a : values) (s : spe D) : Prop :=
  match s with
  | AtomicLeaf x _ _ => ~ In x (map fst a)
  | NominalLeaf x ws => forall y, In (x, RStr y) a -> forall q, In (y, q) ws -> (0 < q)%Q
  | _ => True
  end.

Section Total.
  Context {N : numsys} {S : logsys} {D : distsys N S}.
  Context (dlaw : dist D -> (fval -> R) -> R) (dpdf : dist D -> R -> R) (ident : spe D -> nat).
  Context (pdf : pdf_ok (S:=S) dpdf).
  Notation spe := (spe D).
  Notation wf_spe := (wf_spe dlaw).
  Notation wf_leaf := (wf_leaf dlaw).
  Notation assignment := (assignment (N:=N)).
  Notation density := (density dlaw dpdf).
  Notation cons_ok := (cons_ok dlaw dpdf).
  Notation M := (M (N:=N) (D:=D)).

  Lemma answered_sub : forall (s : spe) a b, (forall p, In p b -> In p a) -> every (answered a) s -> every (answered b) s.
  Proof.
    intros s a b H. apply every_impl. intros u. assert (K : forall x, In x (map fst b) -> In x (map fst a)).
    { intros x Hx. apply in_map_iff in Hx. destruct Hx as (p & <- & Hp). now apply in_map, H. }
    destruct u; cbn [answered]; auto. intros A y Hy. apply A. now apply H.
  Qed.
  (** a part of an assignment that has no variable of an expression says nothing about it *)
  Lemma answered_none : forall s a, wf_spe s -> (forall p, In p a -> ~ vars s (fst p)) -> every (answered a) s.
  Proof.
    assert (L : forall s a, wf_leaf s -> (forall p, In p a -> ~ vars s (fst p)) -> every (answered a) s).
    { intros s a W H. pose proof (base_in dlaw s W) as B. assert (Nb : ~ In (base s) (map fst a)) by (intros K; apply in_map_iff in K; destruct K as (p & E & Hp); apply (H p Hp); now rewrite E).
      destruct s; try contradiction; cbn [every answered base] in *; repeat split; auto. intros y Hy. destruct Nb. apply in_map_iff. eexists; split; [|exact Hy]; reflexivity. }
    induction s using spe_ind'; intros a' W Na; try (apply L; auto; fail).
    - split; [exact Logic.I|]. apply All_intro. intros c Hc. apply H; [auto|eapply sum_wf; eauto|]. intros p Hp K. apply (Na p Hp). now apply (sum_vars dlaw l c W Hc).
    - split; [exact Logic.I|]. apply All_intro. intros c Hc. apply H; [auto|eapply prod_wf; eauto|]. intros p Hp K. apply (Na p Hp). apply pvars_in. eauto.
  Qed.
  Lemma answered_portion : forall s (V : string -> Prop) a, wf_spe s -> (forall x, vars s x -> V x) -> every (answered (portion V a)) s -> every (answered a) s.
  Proof.
    assert (L : forall s (V : string -> Prop) a, wf_leaf s -> (forall x, vars s x -> V x) -> every (answered (portion V a)) s -> every (answered a) s).
    { intros s V a W H A. pose proof (H _ (base_in dlaw s W)) as B. apply every_leaf; [now apply (wf_leaf_leaf dlaw)|]. apply every_here in A. destruct s; try contradiction; cbn [answered base] in *; auto.
      - intros K. apply A. apply in_map_iff in K. destruct K as (p & <- & Hp). now apply portion_keys.
      - intros y Hy. apply A. now apply portion_in. }
    induction s using spe_ind'; intros V a' W Sv A; try (apply (L _ V); auto; fail).
    - split; [exact Logic.I|]. apply All_intro. intros c Hc. apply (H c Hc V); [eapply sum_wf; eauto| |eapply every_sum; eauto]. intros x Hx. apply Sv. now apply (sum_vars dlaw l c W Hc).
    - split; [exact Logic.I|]. apply All_intro. intros c Hc. apply (H c Hc V); [eapply prod_wf; eauto| |eapply every_prod; eauto]. intros x Hx. apply Sv, pvars_in. eauto.
  Qed.

  (** ** Leaves *)
  Lemma leaf_val_total : forall s v, wf_leaf s -> finite_val (val_of v) -> answered [(base s, val_of v)] s -> exists p, leaf_logpdf_val s v = Ok p.
  Proof.
    intros s v W Fv A. destruct s as [disc x d supp cond env|x a env|x ws|l|l]; try contradiction; cbn [leaf_logpdf_val].
    - destruct v as [y|y]; eauto. destruct y as [|c|]; try destruct Fv. destruct W as (W1 & W2 & W3 & W4 & W5). destruct disc.
      + destruct (point_ok dlaw true d supp cond W1 (disc_int _ _ _ _ _ _ _ W2) W3 W4 c eq_refl) as (q & Eq & _). eauto.
      + unfold leaf_logpdf. destruct cond; cbn [negb]; eauto. destruct (iv_contains (Fin c) supp); cbn [negb]; eauto.
        destruct (logZ_ok dlaw false d supp W1 (disc_int _ _ _ _ _ _ _ W2) W3) as (z & Ez & _). rewrite Ez. cbn [bind]. eauto.
    - cbn [answered base map fst] in A. destruct A. now left.
    - destruct v as [y|y]; eauto. destruct (lookup y ws) as [q|] eqn:E; eauto. destruct W as (Nd & _). apply lookup_in in E; auto.
      assert (P : (0 < q)%Q) by (apply (A y); [now left|exact E]). destruct (Qle_bool q 0) eqn:Eq; eauto. apply Qle_bool_iff in Eq. exfalso. now apply (Qlt_not_le 0 q).
  Qed.
  Lemma leaf_val_only : forall s v p, wf_leaf s -> leaf_logpdf_val s v = Ok p -> answered [(base s, val_of v)] s.
  Proof.
    intros s v p W H. destruct s as [disc x d supp cond env|x a env|x ws|l|l]; try contradiction; cbn [leaf_logpdf_val] in H; cbn [answered base]; auto; try discriminate.
    intros y [E|[]] q Hq. injection E as E. destruct v as [u|u]; [discriminate|]. injection E as ->. destruct W as (Nd & _). apply (lookup_in) in Hq; auto. rewrite Hq in H.
    destruct (Qle_bool q 0) eqn:Eq; [discriminate|]. apply Qnot_le_lt. intros K. apply Qle_bool_iff in K. congruence.
  Qed.
  Lemma asked_one : forall (s : spe) (a : assignment), is_leaf s = true -> asked s (values_of a) -> exists v, a = [(base s, v)] /\ one_value s a = Ok v.
  Proof.
    intros s a L As. assert (E : exists v, values_of a = [(base s, v)]) by (destruct s; try discriminate; exact As). destruct E as (v & E).
    destruct a as [|(k, u) [|]]; try discriminate. cbn [values_of map fst snd] in E. injection E as E1 E2. exists u. rewrite E1. split; auto. unfold one_value. rewrite leaf_env_base, String.eqb_refl by auto. reflexivity.
  Qed.
  Lemma leaf_asg_total : forall s a, wf_leaf s -> finite_values (values_of a) -> asked s (values_of a) -> every (answered (values_of a)) s -> exists r, leaf_logpdf_asg s a = Ok r.
  Proof.
    intros s a W Fa As A. destruct (asked_one s a (wf_leaf_leaf dlaw s W) As) as (v & -> & E). unfold leaf_logpdf_asg. rewrite E. cbn [bind]. apply every_here in A. inversion Fa; subst.
    destruct (leaf_val_total s v W) as (p & Ep); auto. rewrite Ep. cbn [bind]. eauto.
  Qed.
  Lemma leaf_asg_only : forall s a r, wf_leaf s -> leaf_logpdf_asg s a = Ok r -> a <> [] /\ every (answered (values_of a)) s.
  Proof.
    intros s a r W H. unfold leaf_logpdf_asg in H. inv_bind H. inv_bind H. unfold one_value in E. destruct a as [|(k, v) [|]]; try discriminate. inv_bind E. injection E as <-. split; [discriminate|].
    unfold passert in E1. destruct (String.eqb_spec k (fst (leaf_env s))) as [->|]; [|discriminate]. pose proof (wf_leaf_leaf dlaw s W) as Lf. rewrite leaf_env_base by auto. pose proof (leaf_val_only s v _ W E0). apply every_leaf; auto.
  Qed.

  (** ** Sums *)
  Lemma sum_logpdf_total : forall ps (ws : list (lg S)), List.length ps = List.length ws -> exists r, sum_logpdf ps ws = Ok r.
  Proof.
    intros ps ws Len. unfold sum_logpdf. destruct (min_dim ps) as [d|] eqn:E; eauto. rewrite min_dim_least in E. apply least_some in E. destruct E as ((q & Hq & _ & Dq) & _).
    apply in_map_iff in Hq. destruct Hq as (p & <- & Hp). cbn [read fst] in Dq.
    assert (Hw : exists w, In (p, w) (combine ps ws)).
    { clear -Len Hp. revert ws Len. induction ps as [|p' ps IH]; intros [|w ws] Len; try discriminate; [destruct Hp|]. destruct Hp as [->|Hp]; [exists w; now left|]. destruct (IH Hp ws) as (w' & K); [now injection Len|]. exists w'. now right. }
    destruct Hw as (w & Hw). set (qs := filter _ (combine ps ws)). assert (K : In (p, w) qs) by (apply filter_In; split; auto; now apply Nat.eqb_eq).
    destruct (lse_ok S (map (fun q => ladd (snd q) (snd (fst q))) qs)) as (r & -> & _); [destruct qs; [destruct K|discriminate]|]. cbn [bind]. eauto.
  Qed.

  (** ** Products *)
  Lemma child_of_total : forall (m : list spe) x i, All wf_spe m -> pvars m x -> exists j, child_of x i (map (get_symbols (D:=D)) m) = Some j.
  Proof.
    induction m as [|c m IH]; intros x i W V; [destruct V|]. destruct W as (Wc & Wm). cbn [map child_of]. destruct (child_of x (1 + i) (map get_symbols m)) as [k|] eqn:E; eauto.
    apply pvars_in in V. destruct V as (d & [->|Hd] & Vd).
    - apply (get_symbols_vars dlaw) in Vd. assert (K : inb String.eqb x (get_symbols d) = true) by now apply inb_string. rewrite K. eauto.
    - destruct (IH x (1 + i)%nat Wm) as (j & Ej); [apply pvars_in; eauto|]. congruence.
  Qed.
  Lemma split_total : forall l (a : assignment), wf_spe (ProductSPE l) -> (forall p, In p a -> vars (ProductSPE l) (fst p)) -> exists g, split_assignment (syms l) a = Ok g.
  Proof.
    intros l a W H. unfold split_assignment. generalize (@nil (nat * assignment)). induction a as [|p a IH]; intros g; cbn [foldM]; eauto.
    destruct (child_of_total l (fst p) 0) as (j & Ej); [apply W|apply (H p); now left|]. unfold syms. rewrite Ej. cbn [bind]. apply IH. intros q Hq. apply H. now right.
  Qed.

  (** ** logpdf *)
  Context (U : spe -> Prop) (Uc : closed ident U).
  Section Pdf.
    Context (V : memo (D:=D) -> Prop).
    Context (Vget : forall m, V m -> Forall (pdf_entry dlaw dpdf ident U) (m_logpdf m)).
    Context (Vset : forall m e, V m -> pdf_entry dlaw dpdf ident U e -> V (mkMemo (m_logprob m) (m_condition m) (e :: m_logpdf m) (m_constrain m))).
    Lemma memo_logpdf_safe : forall s a x, safe V x -> safe V (memo_logpdf ident s a x).
    Proof.
      intros s a x H t Ht. unfold memo_logpdf. destruct (find_key asg_key_eqb (ident s, a) (m_logpdf t)) as [r|]; [exists r; reflexivity|]. destruct (H t Ht) as (r & Er). destruct (x t) as [[r'|e] t']; cbn [fst] in *; eauto.
    Qed.
    Theorem logpdf_mem_safe : forall s a, U s -> wf_spe s -> finite_values (values_of a) -> a <> [] -> asked s (values_of a) -> every (answered (values_of a)) s ->
      safe V (logpdf_mem ident s a).
    Proof.
      induction s using spe_ind'; intros a' Us W Fa Na As An; cbn [logpdf_mem]; apply memo_logpdf_safe; try (apply safe_lift; now apply leaf_asg_total).
      - assert (Sm : forall c, In c l -> sat V (logpdf_mem ident (fst c) a') (pdf_res dlaw dpdf (fst c) a')).
        { intros c Hc. apply (logpdf_mem_ok dlaw dpdf ident pdf U Uc V Vget Vset); auto; [destruct Uc as (K & _); eauto|eapply sum_wf; eauto]. }
        apply safe_bind with (P := Forall2 (fun c r => pdf_res dlaw dpdf (fst c) a' r) l).
        + apply sat_mmap. exact Sm.
        + apply safe_mmap with (P := fun c r => pdf_res dlaw dpdf (fst c) a' r). intros c Hc. split; [auto|]. apply H; auto; [destruct Uc as (K & _); eauto|eapply sum_wf; eauto|exact (All_In _ (fun c => asked (fst c) (values_of a')) _ _ As Hc)|eapply every_sum; eauto].
        + intros ps F. apply safe_lift. apply sum_logpdf_total. rewrite map_length. symmetry. eapply Forall2_len; eauto.
      - destruct As as (As1 & As2). unfold product_logpdf. rewrite map_map. cbn [fst]. fold (syms l). apply safe_bind with (P := fun g => groups_ok l g a').
        + apply sat_lift. intros g Hg. now apply split_ok.
        + apply safe_lift. apply split_total; auto. intros p Hp. apply (As1 (fst p, val_of (snd p))). unfold values_of. apply in_map_iff. eauto.
        + intros g (G1 & G2 & G3).
          assert (Sub : forall i b, In (i, b) g -> b <> [] /\ (forall p, In p (values_of b) -> In p (values_of a')) /\ exists c, nth_error l i = Some c /\ values_of b = portion (vars c) (values_of a')).
          { intros i b Hb. apply G2 in Hb. destruct Hb as (-> & Nb). split; auto. split.
            - intros p Hp. unfold values_of in *. apply in_map_iff in Hp. destruct Hp as (q & <- & Hq). apply filter_In in Hq. apply in_map_iff. exists q. tauto.
            - destruct (group l i a') as [|p b] eqn:Eg; [tauto|]. assert (Hp : In p (group l i a')) by (rewrite Eg; now left). apply filter_In in Hp. destruct Hp as (Hp & Hh). unfold here in Hh.
              destruct (child_of (fst p) 0 (syms l)) as [j|] eqn:Ej; [|discriminate]. apply Nat.eqb_eq in Hh. subst j. destruct (child_of_ok dlaw l _ 0 i Ej) as (_ & c & Hc & _). rewrite Nat.sub_0_r in Hc. exists c. split; auto. rewrite <- Eg. now apply (group_portion dlaw). }
          assert (Fin' : forall i b, In (i, b) g -> finite_values (values_of b)).
          { intros i b Hb. apply Forall_forall. intros p Hp. unfold finite_values in Fa. rewrite Forall_forall in Fa. apply Fa. destruct (Sub i b Hb) as (_ & K & _). now apply K. }
          assert (Sm : forall q, In q g -> sat V (match nth_error (map (fun c => (get_symbols c, logpdf_mem ident c)) l) (fst q) with Some k => snd k (snd q) | None => lift (Raise IndexError) end) (fun r => True)).
          { intros (i, b) Hb. cbn [fst snd]. rewrite nth_error_map. destruct (nth_error l i) as [c|] eqn:Ec; cbn [option_map]; [|apply sat_lift; discriminate].
            cbn [snd]. apply nth_error_In in Ec as Hc. eapply sat_weaken; [apply (logpdf_mem_ok dlaw dpdf ident pdf U Uc V Vget Vset); [destruct Uc as (_ & K & _); eauto|eapply prod_wf; eauto|eauto]|auto]. }
          apply safe_bind with (P := Forall2 (fun q r => True) g).
          * apply sat_mmap. exact Sm.
          * apply safe_mmap with (P := fun q r => True). intros (i, b) Hb. split; [now apply (Sm (i, b))|]. cbn [fst snd]. rewrite nth_error_map. destruct (Sub i b Hb) as (Nb & Kb & c & Ec & Eb). rewrite Ec. cbn [option_map snd]. apply nth_error_In in Ec as Hc.
            apply H; auto; [destruct Uc as (_ & K & _); eauto|eapply prod_wf; eauto|eauto| |].
            -- rewrite Eb. destruct (All_In _ _ _ _ As2 Hc) as [K|K]; auto. rewrite K in Eb. destruct b; [tauto|discriminate].
            -- apply (answered_sub c (values_of a')); auto. eapply every_prod; eauto.
          * intros ps F. destruct ps as [|p ps]; [|apply safe_ret]. exfalso. inversion F; subst g. destruct a' as [|p a']; [tauto|]. destruct (G3 p) as (i & Hi); [now left|].
            assert (Hg : In (i, group l i (p :: a')) []); [|destruct Hg]. apply G2. split; auto. intros K. assert (Q : In p (group l i (p :: a'))); [|rewrite K in Q; destruct Q]. apply filter_In. split; [now left|]. unfold here. rewrite Hi. apply Nat.eqb_refl.
    Qed.
  End Pdf.

  (** a table in which only such assignments have entries *)
  Definition answered_entry (e : (nat * assignment) * (nat * lg S)) : Prop :=
    forall s, U s -> ident s = fst (fst e) -> snd (fst e) <> [] /\ every (answered (values_of (snd (fst e)))) s.
  Definition answered_table (m : memo (D:=D)) : Prop := Forall answered_entry (m_logpdf m).
  Notation only s a := (fun r : nat * lg S => a <> [] /\ every (answered (values_of a)) s).
  Lemma memo_logpdf_only : forall s (a : assignment) x, U s -> sat answered_table x (only s a) -> sat answered_table (memo_logpdf ident s a x) (only s a).
  Proof.
    intros s a x Us H t Ht. unfold memo_logpdf. destruct (find_key asg_key_eqb (ident s, a) (m_logpdf t)) as [r|] eqn:E.
    - split; [exact Ht|]. cbn [fst]. intros b Eb. injection Eb as <-. apply find_key_in in E. destruct E as ((k, g) & Ek & Hin). unfold asg_key_eqb in Ek. cbn [fst snd] in Ek.
      apply andb_true_iff in Ek. destruct Ek as (E1 & E2). apply Nat.eqb_eq in E1. unfold answered_table in Ht. rewrite Forall_forall in Ht. destruct (Ht _ Hin s Us (eq_sym E1)) as (G2 & G3). cbn [fst snd] in G2, G3.
      pose proof (key_values _ _ E2) as Kv. rewrite <- Kv. split; auto. intros Z. apply G2. rewrite Z in Kv. now apply map_eq_nil in Kv.
    - destruct (H t Ht) as (H1 & H2). destruct (x t) as [[r|e] t']; cbn [fst snd] in *.
      + split; [|intros b Eb; exact (H2 b Eb)]. unfold answered_table. cbn [m_logpdf]. constructor; auto. pose proof (H2 r eq_refl) as K. destruct Uc as (_ & _ & Inj).
        intros s' Us' Ei; cbn [fst snd] in *; rewrite (Inj s' s Us' Us Ei); auto.
      + split; auto; discriminate.
  Qed.
  Theorem logpdf_mem_only : forall s (a : assignment), U s -> wf_spe s -> sat answered_table (logpdf_mem ident s a) (only s a).
  Proof.
    induction s using spe_ind'; intros a' Us W; cbn [logpdf_mem]; apply memo_logpdf_only; auto; try (apply sat_lift; intros r Hr; now apply (leaf_asg_only _ a' r)).
    - apply sat_bind with (P := Forall2 (fun c r => a' <> [] /\ every (answered (values_of a')) (fst c)) l).
      + apply sat_mmap. intros c Hc. apply H; auto; [destruct Uc as (K & _); eauto|]. eapply sum_wf; eauto.
      + intros ps F. apply sat_lift. intros r _. assert (Nl : l <> []).
        { intros ->. destruct W as (_ & W & _). cbn in W. lra. }
        split; [destruct F as [|c r' l ps K F]; [tauto|apply K]|]. split; [exact Logic.I|]. apply All_intro. intros c Hc. destruct (Forall2_in_l _ _ _ _ _ _ F Hc) as (q & _ & _ & K). exact K.
    - unfold product_logpdf. rewrite map_map. cbn [fst]. fold (syms l). apply sat_bind with (P := fun g => groups_ok l g a'); [apply sat_lift; intros g Hg; now apply split_ok|].
      intros g (G1 & G2 & G3).
      apply sat_bind with (P := Forall2 (fun q r => exists c, nth_error l (fst q) = Some c /\ snd q <> [] /\ every (answered (values_of (snd q))) c) g).
      + apply sat_mmap. intros (i, b) Hb. cbn [fst snd]. rewrite nth_error_map. destruct (nth_error l i) as [c|] eqn:Ec; cbn [option_map]; [|apply sat_lift; discriminate].
        cbn [snd]. apply nth_error_In in Ec as Hc. eapply sat_weaken; [apply H; auto; [destruct Uc as (_ & K & _); eauto|eapply prod_wf; eauto]|]. intros r Hr. exists c. auto.
      + intros ps F. destruct ps as [|p ps]; [apply sat_lift; discriminate|]. apply sat_ret. split.
        * intros ->. destruct g as [|(i, b) g]; [inversion F|]. destruct (G2 i b) as (K & _). destruct (K (or_introl eq_refl)) as (E & Ne). now rewrite E in Ne.
        * split; [exact Logic.I|]. apply All_intro. intros c Hc. pose proof (prod_wf dlaw l W c Hc) as Wc. apply In_nth_error in Hc. destruct Hc as (i & Hi). pose proof (group_portion dlaw l W a' i c G3 Hi) as Eg.
          assert (Ap : every (answered (portion (vars c) (values_of a'))) c).
          { rewrite <- Eg. destruct (group l i a') as [|q b] eqn:E; [apply answered_none; auto; intros p' []|]. rewrite <- E. assert (Hg : In (i, group l i a') g) by (apply G2; rewrite E; split; [reflexivity|discriminate]).
            destruct (Forall2_in_l _ _ _ _ _ _ F Hg) as (r & _ & c' & Hc' & _ & K). cbn [fst snd] in *. rewrite Hi in Hc'. injection Hc' as <-. exact K. }
          now apply (answered_portion c (vars c)).
  Qed.

  (** ** constrain *)
  Lemma leaf_constrain_total : forall s a, wf_leaf s -> finite_values (values_of a) -> asked s (values_of a) -> every (answered (values_of a)) s -> 0 < snd (density s (values_of a)) ->
    exists t, leaf_constrain s a = Ok t.
  Proof.
    intros s a W Fa As A Pos. destruct (asked_one s a (wf_leaf_leaf dlaw s W) As) as (v & -> & E). unfold leaf_constrain. rewrite E. cbn [bind]. apply every_here in A. inversion Fa as [|? ? Fv _]; subst. cbn [snd] in Fv.
    destruct (leaf_val_total s v W Fv A) as (p & Ep). pose proof (leaf_logpdf_val_ok dlaw dpdf pdf s v p W Fv Ep) as Dn. cbn [values_of map fst snd] in Pos. rewrite leaf_density_any, Dn in Pos by now apply (wf_leaf_leaf dlaw). cbn [snd] in Pos.
    assert (Ni : lisninf p = false) by (destruct (lisninf p) eqn:El; auto; apply lisninf_ok in El; lra).
    unfold leaf_constrain_val. rewrite Ep. cbn [bind]. rewrite Ni. cbn [negb passert bind].
    destruct s as [disc x d supp cond env|x c env|x ws|l|l]; try contradiction; cbn [leaf_logpdf_val] in Ep.
    - destruct v as [[|c|]|y]; try destruct Fv; eauto. injection Ep as <-. rewrite lninf_ok in Pos. lra.
    - discriminate.
    - destruct v as [y|y]; [injection Ep as <-; rewrite lninf_ok in Pos; lra|]. eexists. reflexivity.
  Qed.
  Section Cons.
    Context (so : strorder) (V : memo (D:=D) -> Prop).
    Context (Vget : forall m, V m -> Forall (pdf_entry dlaw dpdf ident U) (m_logpdf m)).
    Context (Vset : forall m e, V m -> pdf_entry dlaw dpdf ident U e -> V (mkMemo (m_logprob m) (m_condition m) (e :: m_logpdf m) (m_constrain m))).
    Context (Vget' : forall m, V m -> Forall (cons_entry dlaw dpdf ident U) (m_constrain m)).
    Context (Vset' : forall m e, V m -> cons_entry dlaw dpdf ident U e -> V (mkMemo (m_logprob m) (m_condition m) (m_logpdf m) (e :: m_constrain m))).
    Lemma memo_constrain_safe : forall s a x, safe V x -> safe V (memo_constrain ident s a x).
    Proof.
      intros s a x H t Ht. unfold memo_constrain. destruct (find_key asg_key_eqb (ident s, a) (m_constrain t)) as [r|]; [exists r; reflexivity|]. destruct (H t Ht) as (r & Er). destruct (x t) as [[r'|e] t']; cbn [fst] in *; eauto.
    Qed.
    Notation pdf_sat := (logpdf_mem_ok dlaw dpdf ident pdf U Uc V Vget Vset).
    Notation cons_sat := (constrain_mem_ok dlaw dpdf ident pdf so U Uc V Vget Vset Vget' Vset').
    Lemma factors_pos : forall l, (forall x, In x l -> 0 <= x) -> 0 < fold_right Rmult 1 l -> forall x, In x l -> 0 < x.
    Proof.
      induction l as [|y l IH]; intros Nn P x Hx; [destruct Hx|]. cbn [fold_right] in P. pose proof (Nn y (or_introl eq_refl)) as Ny.
      assert (Py : 0 < y) by (destruct Ny as [K|K]; auto; subst y; rewrite Rmult_0_l in P; lra). assert (Pl : 0 < fold_right Rmult 1 l) by (apply (Rmult_lt_reg_l y); auto; lra).
      destruct Hx as [<-|Hx]; auto. apply IH; auto. intros z Hz. apply Nn. now right.
    Qed.
    Theorem constrain_mem_safe : forall s a, U s -> wf_spe s -> every heavy s -> finite_values (values_of a) -> NoDup (map fst a) -> (forall p, In p (values_of a) -> vars s (fst p)) ->
      a <> [] -> asked s (values_of a) -> every (answered (values_of a)) s -> every (plain_at (values_of a)) s -> 0 < snd (density s (values_of a)) ->
      safe V (constrain_mem so ident s a).
    Proof.
      induction s using spe_ind'; intros a' Us W Hv Fa Nd Cv Na As An Pl Pos; cbn [constrain_mem]; apply memo_constrain_safe; try (apply safe_lift; now apply leaf_constrain_total).
      - unfold sum_constrain. rewrite mmap_map. cbn [fst snd].
        assert (Sm : forall c, In c l -> sat V (logpdf_mem ident (fst c) a') (pdf_res dlaw dpdf (fst c) a')) by (intros c Hc; apply pdf_sat; auto; [destruct Uc as (K & _); eauto|eapply sum_wf; eauto]).
        assert (Ac : forall c, In c l -> asked (fst c) (values_of a')) by (intros c Hc; exact (All_In _ (fun c => asked (fst c) (values_of a')) _ _ As Hc)).
        apply safe_bind with (P := Forall2 (fun c p => pdf_res dlaw dpdf (fst c) a' p) l).
        + apply sat_mmap. exact Sm.
        + apply safe_mmap with (P := fun c p => pdf_res dlaw dpdf (fst c) a' p). intros c Hc. split; [now apply Sm|].
          apply (logpdf_mem_safe V Vget Vset); auto; [destruct Uc as (K & _); eauto|eapply sum_wf; eauto|eapply every_sum; eauto].
        + intros ps F. assert (El : least (map (fun c : spe * lg S => density (fst c) (values_of a')) l) = min_dim ps).
          { rewrite min_dim_least. f_equal. clear -F. induction F as [|c p l ps (_ & E) F IH]; auto. cbn [map]. now rewrite E, IH. }
          destruct (min_dim ps) as [d|] eqn:Ed.
          2: { exfalso. cbn [DensSpec.density] in Pos. unfold mix_density in Pos. rewrite map_map in Pos. cbn [fst] in Pos. rewrite El in Pos. cbn [snd] in Pos. lra. }
          cbv zeta. rewrite combine_map_r, filter_map, mmap_map, map_map. cbn [fst snd].
          set (qs := filter (fun q => negb (lisninf (snd (fst q))) && Nat.eqb (fst (fst q)) d) (combine ps l)).
          assert (Qin : forall q, In q qs -> In (snd q) l /\ 0 < toP (snd (fst q)) /\ density (fst (snd q)) (values_of a') = read (fst q)).
          { intros q Hq. apply filter_In in Hq. destruct Hq as (Hq & Hb). assert (K : In (snd q) l /\ density (fst (snd q)) (values_of a') = read (fst q)).
            { clear -F Hq. induction F as [|c p l ps (_ & E) F IH]; [destruct Hq|]. destruct Hq as [<-|Hq]; [split; [now left|exact E]|]. destruct (IH Hq). split; auto. now right. }
            destruct K as (K1 & K2). repeat split; auto. apply andb_true_iff in Hb. destruct Hb as (B1 & _). pose proof (toP_nonneg S (snd (fst q))) as [G|G]; auto. symmetry in G. apply lisninf_ok in G. rewrite G in B1. discriminate. }
          assert (Nq : qs <> []).
          { destruct (least_some _ _ El) as ((x & Hx & Px & Dx) & _). apply in_map_iff in Hx. destruct Hx as (c & <- & Hc).
            assert (exists p, In (p, c) (combine ps l) /\ density (fst c) (values_of a') = read p) as (p & Hp & Ep).
            { clear -F Hc. induction F as [|c' p l ps (_ & E) F IH]; [destruct Hc|]; destruct Hc as [<-|Hc]; [exists p; split; [now left|exact E]|]. destruct (IH Hc) as (p' & K1 & K2). exists p'. split; auto. now right. }
            rewrite Ep in Px, Dx. cbn [read fst snd] in Px, Dx. intros K. assert (Hin : In (p, c) qs).
            { apply filter_In. split; auto. cbn [fst snd]. apply andb_true_iff. split; [|now apply Nat.eqb_eq]. apply negb_true_iff. destruct (lisninf (snd p)) eqn:Ep'; auto. apply lisninf_ok in Ep'. lra. }
            rewrite K in Hin. destruct Hin. }
          assert (Sc : forall q, In q qs -> sat V (constrain_mem so ident (fst (snd q)) a') (cons_ok (fst (snd q)) (values_of a'))).
          { intros q Hq. destruct (Qin q Hq) as (Hc & _). apply cons_sat; auto; [destruct Uc as (K & _); eauto|eapply sum_wf; eauto|eapply every_sum; eauto|]. intros p Hp. apply (sum_vars dlaw l (snd q) W Hc). auto. }
          apply safe_bind with (P := Forall2 (fun q t => cons_ok (fst (snd q)) (values_of a') t) qs).
          * apply sat_mmap. exact Sc.
          * apply safe_mmap with (P := fun q t => cons_ok (fst (snd q)) (values_of a') t). intros q Hq. split; [now apply Sc|]. destruct (Qin q Hq) as (Hc & Pq & Eq).
            apply H; auto; [destruct Uc as (K & _); eauto|eapply sum_wf; eauto|eapply every_sum; eauto| |eapply every_sum; eauto|eapply every_sum; eauto|rewrite Eq; exact Pq]. intros p Hp. apply (sum_vars dlaw l (snd q) W Hc). auto.
          * intros ts Ft. apply safe_lift. set (ps' := map (fun q : (nat * lg S) * (spe * lg S) => ladd (snd (fst q)) (snd (snd q))) qs).
            assert (Ne : ps' <> []) by (unfold ps'; destruct qs; [tauto|discriminate]).
            assert (Pp : Forall (fun w => 0 < toP w) ps').
            { pose proof (every_here _ _ Hv) as Hh. cbn [heavy] in Hh. rewrite Forall_forall in Hh. unfold ps'. rewrite Forall_map. apply Forall_forall. intros q Hq. rewrite ladd_ok. destruct (Qin q Hq) as (K1 & K2 & _). apply Rmult_lt_0_compat; auto. }
            destruct (lognorm_total (S:=S) ps' Ne) as (ws & Ew). rewrite Ew. cbn [bind]. destruct (lognorm_pos ps' ws Ne Pp Ew) as (Pw & Tw & Fw).
            assert (Tc : forall t, In t ts -> exists c, In c l /\ cons_ok (fst c) (values_of a') t).
            { intros t Ht. destruct (Forall2_in_r _ _ _ _ _ _ Ft Ht) as (q & Hq & K). exists (snd q). split; [now apply Qin|exact K]. }
            assert (Len : List.length ts = List.length ws) by (apply Forall2_len in Ft, Fw; unfold ps' in Fw; rewrite map_length in Fw; congruence).
            assert (Tm : exists t, mk_Sum ts ws = Ok t).
            { apply (mk_Sum_total dlaw); auto.
              - intros ->. inversion Ft; auto.
              - apply Forall_forall. intros t Ht. destruct (Tc t Ht) as (c & _ & K). apply K.
              - intros t u x Ht Hu Vx. destruct (Tc t Ht) as (c & Hc & Kc). destruct (Tc u Hu) as (e & He & Ke). apply (c_plain _ _ _ _ _ Ke); [eapply every_sum; eauto|]. apply (sum_vars dlaw l e W He). apply (sum_vars dlaw l c W Hc). now apply (c_vars _ _ _ _ _ Kc). }
            unfold sum_or_one. destruct ts as [|t [|t' ts]]; eauto.
      - unfold product_constrain. rewrite mmap_map. cbn [fst snd]. destruct As as (As1 & As2).
        assert (Dp : forall c, In c l -> 0 < snd (dens_at dlaw dpdf (values_of a') c)).
        { rewrite prod_density_eq, pprod_snd in Pos. intros c Hc. apply (factors_pos _) with (2 := Pos); [|rewrite map_map; apply in_map_iff; eauto].
          intros x Hx. rewrite map_map in Hx. apply in_map_iff in Hx. destruct Hx as (e & <- & He). unfold dens_at. destruct (portion (vars e) (values_of a')); [cbn; lra|]. apply (density_nonneg dlaw dpdf pdf). eapply prod_wf; eauto. }
        set (body := fun c : spe => match filter (fun x => inb String.eqb x (map fst a')) (get_symbols c) with
            | [] => mret c
            | s :: l0 => mbind (lift (mapM (fun x => match lookup x a' with Some v => Ok (x, v) | None => Raise KeyError end) (it_str so (s :: l0)))) (fun sa => constrain_mem so ident c sa) end).
        assert (Body : forall c, In c l -> sat V (body c) (fun t => wf_spe t /\ forall x, vars t x -> vars c x) /\ safe V (body c)).
        { intros c Hc. pose proof (prod_wf dlaw l W c Hc) as Wc. unfold body. destruct (filter (fun x => inb String.eqb x (map fst a')) (get_symbols c)) as [|x sy] eqn:Es.
          - split; [apply sat_ret; auto|apply safe_ret].
          - rewrite <- Es.
            assert (Ne : portion (vars c) (values_of a') <> []).
            { assert (Hx : In x (filter (fun x => inb String.eqb x (map fst a')) (get_symbols c))) by (rewrite Es; now left). apply filter_In in Hx. destruct Hx as (H1 & H2).
              apply (get_symbols_vars dlaw) in H1. apply inb_string in H2. rewrite <- values_keys in H2. apply in_map_iff in H2. destruct H2 as (p & <- & Hp). intros K.
              assert (Q : In p (portion (vars c) (values_of a'))) by (apply portion_in; auto). rewrite K in Q. destruct Q. }
            set (look := lift (mapM (fun x => match lookup x a' with Some v => Ok (x, v) | None => Raise KeyError end) (it_str so (filter (fun x => inb String.eqb x (map fst a')) (get_symbols c))))).
            assert (Sl : sat V look (fun sa => Permutation (values_of sa) (portion (vars c) (values_of a')) /\ NoDup (map fst sa))) by (apply sat_lift; intros sa Hs; now apply (sub_assignment dlaw so)).
            assert (Sub : forall sa : assignment, Permutation (values_of sa) (portion (vars c) (values_of a')) -> (forall p, In p (values_of sa) -> In p (values_of a') /\ vars c (fst p)) /\ finite_values (values_of sa)).
            { intros sa Ps. assert (Q : forall p, In p (values_of sa) -> In p (values_of a') /\ vars c (fst p)) by (intros p Hp; eapply Permutation_in in Hp; [|exact Ps]; now apply portion_in in Hp). split; auto.
              apply Forall_forall. intros p Hp. unfold finite_values in Fa. rewrite Forall_forall in Fa. apply Fa. now apply Q. }
            assert (Uk : U c) by (destruct Uc as (_ & K & _); eauto). assert (Hk : every heavy c) by (eapply every_prod; eauto).
            split.
            + apply sat_bind with (1 := Sl). intros sa (Ps & Ns). destruct (Sub sa Ps) as (S1 & S2). eapply sat_weaken; [apply cons_sat; auto; intros p Hp; now apply S1|]. intros t K. split; apply K.
            + apply safe_bind with (1 := Sl).
              * apply safe_lift. destruct (mapM_ok _ _ (fun x => match lookup x a' with Some v => Ok (x, v) | None => Raise KeyError end) (fun _ _ => True) (it_str so (filter (fun x => inb String.eqb x (map fst a')) (get_symbols c)))) as (sa & E & _); [|eauto].
                intros y Hy. eapply Permutation_in in Hy; [|symmetry; apply it_str_perm]. apply filter_In in Hy. destruct Hy as (_ & Hy). apply inb_string in Hy. apply in_map_iff in Hy. destruct Hy as ((z, v) & <- & Hy). apply lookup_in in Hy; auto. cbn [fst]. rewrite Hy. eauto.
              * intros sa (Ps & Ns). destruct (Sub sa Ps) as (S1 & S2). apply H; auto.
                -- intros p Hp. now apply S1.
                -- intros ->. cbn in Ps. apply Permutation_nil in Ps. auto.
                -- apply (asked_perm c (portion (vars c) (values_of a'))); [now symmetry|]. destruct (All_In _ _ _ _ As2 Hc); tauto.
                -- apply (answered_sub c (values_of a')); [intros p Hp; now apply S1|eapply every_prod; eauto].
                -- eapply every_impl; [|eapply every_prod; [exact Pl|exact Hc]]. intros u. assert (Q : forall x, In x (map fst (values_of sa)) -> In x (map fst (values_of a'))) by (intros y Hy; apply in_map_iff in Hy; destruct Hy as (p & <- & Hp); now apply in_map, S1). destruct u; cbn [plain_at]; auto.
                -- rewrite (density_perm dlaw dpdf c _ _ Ps). specialize (Dp c Hc). unfold dens_at in Dp. destruct (portion (vars c) (values_of a')); [tauto|exact Dp]. }
        apply safe_bind with (P := Forall2 (fun c t => wf_spe t /\ forall x, vars t x -> vars c x) l).
        + apply sat_mmap. intros c Hc. now apply Body.
        + apply safe_mmap with (P := fun c t => wf_spe t /\ forall x, vars t x -> vars c x). intros c Hc. now apply Body.
        + intros ts F. apply safe_lift. destruct W as (Nl & Wl & Al). apply (mk_Product_total dlaw).
          * intros ->. inversion F; auto.
          * apply Forall_forall. intros t Ht. destruct (Forall2_in_r _ _ _ _ _ _ F Ht) as (c & _ & K). apply K.
          * clear -F Al. induction F as [|c t l ts K F IH]; [constructor|]. inversion Al as [|? ? A1 A2]; subst. constructor; auto. apply Forall_forall. intros u Hu. destruct (Forall2_in_r _ _ _ _ _ _ F Hu) as (e & He & Ke). rewrite Forall_forall in A1. intros x Vt Vu. apply (A1 e He x); [now apply K|now apply Ke].
    Qed.
  End Cons.
End Total.
