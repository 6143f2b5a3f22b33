(** Proofs of the expected values of samplers. *)
From Coq Require Import List Bool String Reals Lra Lia ZArith QArith Qreals Permutation FunctionalExtensionality.
From Verif Require Import Base Num Sets SetSpec SetProofs Poly Trans TransSpec TransFacts Logs Spe SpeSpec SpeFacts SpeRect LeafProofs LeafEvents Sample SampleSpec SampleFacts SampleSim SampleLaw SampleInv.
Import ListNotations.
Local Open Scope list_scope.
Local Open Scope R_scope.

Lemma sumR_pos_le : forall A (f g : A -> R) l, (forall a, In a l -> f a <= g a) -> sumR (map f l) <= sumR (map g l).
Proof. intros A f g. induction l as [|a l IH]; intros H; cbn; [lra|]. apply Rplus_le_compat; [apply H; now left|]. apply IH. intros; apply H; now right. Qed.
Lemma pairs_ext : forall A B (f g : B -> A -> R) (l : list B) (m : list A), (forall b a, In b l -> In a m -> f b a = g b a) -> pairs (map f l) m = pairs (map g l) m.
Proof.
  intros A B f g. induction l as [|b l IH]; intros [|a m] H; cbn; auto. rewrite H by (now left). f_equal. apply IH. intros; apply H; now right.
Qed.
Lemma pairs_map : forall A B (h : A -> B) (fs : list (B -> R)) l, pairs fs (map h l) = pairs (map (fun f a => f (h a)) fs) l.
Proof. intros A B h. induction fs as [|f fs IH]; intros [|a l]; cbn; auto. now rewrite IH. Qed.
Lemma pairs_rel : forall A B C (p : C -> B -> R) (q : C -> A -> R) (fs : list C) l m, Forall2 (fun a b => forall f, p f b = q f a) l m -> pairs (map p fs) m = pairs (map q fs) l.
Proof.
  intros A B C p q fs l m H. revert fs. induction H as [|a b l m E H IH]; intros [|f fs]; cbn; auto. now rewrite E, IH.
Qed.
Lemma map_repeat : forall A B (h : A -> B) a n, map h (repeat a n) = repeat (h a) n.
Proof. induction n as [|n IH]; cbn; congruence. Qed.
Lemma pairs_ones : forall A (l : list A), pairs (repeat (fun _ => 1) (List.length l)) l = 1.
Proof. induction l as [|a l IH]; cbn; [reflexivity|rewrite IH; ring]. Qed.
Lemma pairs_single : forall A (g : A -> R) (l : list A) d j, (j < List.length l)%nat -> pairs (repeat (fun _ => 1) j ++ g :: repeat (fun _ => 1) (List.length l - 1 - j)) l = g (nth j l d).
Proof.
  intros A g. induction l as [|a l IH]; intros d j Hj; cbn in Hj; [lia|]. destruct j as [|j].
  - cbn [repeat app pairs List.length nth]. replace (Datatypes.S (List.length l) - 1 - 0)%nat with (List.length l) by lia. rewrite pairs_ones. ring.
  - cbn [repeat app pairs List.length nth]. replace (Datatypes.S (List.length l) - 1 - Datatypes.S j)%nat with (List.length l - 1 - j)%nat by lia. rewrite (IH d j) by lia. ring.
Qed.
Lemma pairs_mid : forall A B (F F' : list (A -> R)) (l : list A) (T : list B) (c : B -> R) (g : B -> A -> R) (f : A -> R), (forall a, f a = sumR (map (fun t => c t * g t a) T)) ->
  pairs (F ++ f :: F') l = sumR (map (fun t => c t * pairs (F ++ g t :: F') l) T).
Proof.
  intros A B F F' l T c g f E. revert l. induction F as [|h F IH]; intros [|a l]; cbn [app pairs]; try (symmetry; apply sumR_zero; intros; ring).
  - rewrite E, <- sumR_scale. apply sumR_ext. intros; ring.
  - rewrite IH, Rmult_comm, <- sumR_scale. apply sumR_ext. intros; ring.
Qed.
Lemma upto_full : forall A (f : A -> R) l, upto f (List.length l) l = sumR (map f l).
Proof. intros A f. induction l as [|a l IH]; cbn; [reflexivity|now rewrite IH]. Qed.
Lemma upto_bnd : forall A (f : A -> R) n, bnd f -> bnd (upto f n).
Proof.
  intros A f n (M & Hf). exists (INR n * Rabs M). induction n as [|n IH]; intros [|a l]; cbn [upto]; try (rewrite Rabs_R0; apply Rmult_le_pos; [apply pos_INR|apply Rabs_pos]).
  rewrite S_INR. eapply Rle_trans; [apply Rabs_triang|]. assert (Rabs (f a) <= Rabs M) by (eapply Rle_trans; [apply Hf|apply Rle_abs]). specialize (IH l). lra.
Qed.

(** ** Draws of a leaf, as independent draws *)
Section Leaf.
  Context {N : numsys} {S : logsys} {D : distsys N S}.
  Notation spe := (spe D).
  Notation gen := (gen (D:=D)).
  Context (dlaw : dist D -> (fval -> R) -> R) (ulaw : (R -> R) -> R) (slaw : nat -> (list nat -> R) -> R) (ppf : dist D -> R -> R).
  Notation expect := (expect dlaw ulaw slaw).
  Notation wf_leaf := (wf_leaf dlaw).
  Notation wf_spe := (wf_spe dlaw).
  Notation den := (den dlaw).
  Notation inverted := (inverted dlaw ppf).
  Context (U : uniform_law ulaw) (Sh : shuffle_law slaw).
  Definition inv (disc : bool) (d : dist D) (supp : interval N) (u : R) : R := ppf d (u * leaf_Fl disc d supp + (1 - u) * leaf_Fu disc d supp).
  Definition base_law (s : spe) (h : sv -> R) : R :=
    match s with
    | RealLeaf disc _ d supp true _ => ulaw (fun u => h (SNum (inv disc d supp u)))
    | RealLeaf _ _ d _ false _ => num_law dlaw d (fun x => h (SNum x))
    | AtomicLeaf _ v _ => h (SNum (toR v))
    | NominalLeaf _ ws => index_law (normalize (map (fun p => Q2R (snd p)) ws)) (fun i => h (SStr (fst (nth i ws (EmptyString, 0%Q)))))
    | _ => 0
    end.
  Lemma num_law_law : forall disc d, dist_ok dlaw disc d -> law (num_law dlaw d).
  Proof.
    intros disc d Wo. pose proof (d_law _ _ _ Wo) as L. unfold num_law.
    assert (Bd : forall f : R -> R, bnd f -> bnd (fun v => match v with FNum x => f x | FStr _ => 0 end)).
    { intros f (M & Hf). exists M. intros [x|s]; auto. rewrite Rabs_R0. eapply Rle_trans; [apply Rabs_pos|apply (Hf 0)]. }
    split.
    - intros f g Hf Hg. rewrite <- (law_plus L) by auto. apply law_ext. intros [x|s]; auto. ring.
    - intros c f Hf. rewrite <- (law_scale L) by auto. apply law_ext. intros [x|s]; auto. ring.
    - intros f Hf P. apply (law_pos L); auto. intros [x|s]; auto. lra.
    - transitivity (dlaw d (ind is_num)); [|apply (d_num _ _ _ Wo)]. apply law_ext. intros [x|s]; [symmetry; apply ind_true; now exists x|]. symmetry. apply ind_false. intros (r & E). discriminate.
  Qed.
  Lemma num_law_eq : forall disc d (f : fval -> R), dist_ok dlaw disc d -> bnd f -> num_law dlaw d (fun x => f (FNum x)) = dlaw d f.
  Proof.
    intros disc d f Wo Hf. pose proof (d_law _ _ _ Wo) as L. unfold num_law. apply (law_as L (fun v => ~ is_num v)); auto.
    - apply (law_full L), (d_num _ _ _ Wo).
    - destruct Hf as (M & Hf). exists M. intros [x|s]; auto. rewrite Rabs_R0. eapply Rle_trans; [apply Rabs_pos|apply (Hf (FNum 0))].
    - intros [x|s] H; auto. destruct H. intros (r & E). discriminate.
  Qed.
  Lemma nom_probs : forall x ws, wf_leaf (NominalLeaf x ws) -> probs (normalize (map (fun p => Q2R (snd p)) ws)) /\ sumR (map (fun p => Q2R (snd p)) ws) = 1.
  Proof.
    intros x ws (_ & P & T). assert (E : sumR (map (fun p : string * Q => Q2R (snd p)) ws) = 1).
    { apply Qeq_eqR in T. rewrite Qsum_R, map_map in T. rewrite T. unfold Q2R. cbn. field. }
    split; auto. apply normalize_probs; [|lra]. apply Forall_map. eapply Forall_impl; [|exact P]. intros p Hp. apply Qle_Rle in Hp. unfold Q2R at 1 in Hp. cbn in Hp. lra.
  Qed.
  Lemma base_law_law : forall s, wf_leaf s -> law (base_law s).
  Proof.
    intros s W. destruct s as [disc y d supp cond env|y a env|y ws|l|l]; try contradiction; cbn [base_law].
    - destruct W as (_ & _ & Wo & _). destruct cond.
      + apply (law_image _ _ ulaw (fun u => SNum (inv disc d supp u))). apply U.
      + apply (law_image _ _ (num_law dlaw d) SNum). now apply (num_law_law disc).
    - apply law_point.
    - apply (law_image _ _ (index_law _) (fun i => SStr (fst (nth i ws (EmptyString, 0%Q))))). apply index_law_law. now apply (nom_probs y).
  Qed.
  (** the value belongs to the leaf *)
  Definition fine (s : spe) (v : sv) : Prop := exists u, fval_of v = Some u /\ leaf_point s u.
  Lemma nom_index : forall ws (f : string -> R), sumR (map (fun p => Q2R (snd p)) ws) = 1 ->
    index_law (normalize (map (fun p => Q2R (snd p)) ws)) (fun i => f (fst (nth i ws (EmptyString, 0%Q)))) = sumR (map (fun p => f (fst p) * Q2R (snd p)) ws).
  Proof.
    intros ws f T. unfold index_law, normalize. rewrite T, !map_length.
    transitivity (sumR (map (fun p => f (fst p) * Q2R (snd p)) (map (fun i => nth i ws (EmptyString, 0%Q)) (seq 0 (List.length ws))))); [|now rewrite nth_seq_id]. rewrite (map_map (fun i => nth i ws (EmptyString, 0%Q))). apply sumR_ext. intros i Hi. apply in_seq in Hi.
    rewrite (nth_map_in _ _ _ _ i 0 0) by (rewrite map_length; lia). rewrite (nth_map_in _ _ _ ws i 0 (EmptyString, 0%Q)) by lia. field.
  Qed.
  Lemma base_fine : forall s, wf_leaf s -> inverted s -> base_law s (ind (fine s)) = 1.
  Proof.
    intros s W Hi. destruct s as [disc y d supp cond env|y a env|y ws|l|l]; try contradiction; cbn [base_law].
    - destruct W as (Wi & Wd & Wo & Wp & _). destruct cond.
      + transitivity (ulaw (fun _ => 1)); [|apply (law_one (u_law _ U))]. apply (law_as (u_law _ U) (fun u => ~ 0 < u < 1)).
        * apply (law_full (u_law _ U)). apply (u_in _ U).
        * apply (bnd_comp _ _ (fun u => SNum (inv disc d supp u)) (ind (fine _))). apply bnd_ind.
        * apply bnd_const.
        * intros u Hu. assert (Hu' : 0 < u < 1) by (destruct (dec (0 < u < 1)); tauto). apply ind_true. eexists. split; [reflexivity|]. cbn [leaf_point]. apply (invert_ok ppf dlaw disc d supp Wi Wd Wo Wp (Hi eq_refl) u Hu').
      + rewrite <- Wp. rewrite <- (num_law_eq disc d (ind (in_iv supp)) Wo (bnd_ind _ _)). unfold num_law. apply law_ext. intros [x|s]; auto. apply ind_eq. cbn. split.
        * intros (u & E & H). injection E as <-. exact H.
        * intros H. exists (FNum x). split; auto.
    - apply ind_true. exists (FNum (toR a)). split; reflexivity.
    - destruct (nom_probs y ws W) as (P & T). rewrite (nom_index ws (fun z => ind (fine (NominalLeaf y ws)) (SStr z)) T), <- T. apply sumR_ext. intros p Hp.
      destruct W as (_ & Wp & _). rewrite Forall_forall in Wp. specialize (Wp p Hp). destruct (Qlt_le_dec 0 (snd p)) as [H|H].
      + rewrite ind_true; [ring|]. exists (FStr (fst p)). split; auto. exists p. auto.
      + assert (E : (snd p == 0)%Q) by (now apply Qle_antisym). apply Qeq_eqR in E. rewrite E. unfold Q2R. cbn. ring.
  Qed.
  Lemma base_den : forall s (g : fval -> R), wf_leaf s -> inverted s -> bnd g -> (match s with RealLeaf _ _ _ _ true _ => step g | _ => True end) ->
    base_law s (fun v => match fval_of v with Some u => g u | None => 0 end) = leaf_den_law dlaw s g.
  Proof.
    intros s g W Hi Hg St. destruct s as [disc y d supp cond env|y a env|y ws|l|l]; try contradiction; cbn [base_law leaf_den_law fval_of].
    - destruct W as (Wi & Wd & Wo & Wp & _). destruct cond.
      + exact (inverse_law dlaw ulaw U ppf disc d supp Wi Wd Wo Wp (Hi eq_refl) g St).
      + now apply (num_law_eq disc).
    - reflexivity.
    - destruct (nom_probs y ws W) as (P & T). exact (nom_index ws (fun z => g (FStr z)) T).
  Qed.
  Lemma expect_draws : forall s n F, wf_leaf s -> expect (draws ppf s n) F = iid (base_law s) n (fun vs => F (Ok vs)).
  Proof.
    intros s n F W. destruct s as [disc y d supp cond env|y a env|y ws|l|l]; try contradiction.
    - destruct cond; cbn [draws SampleSpec.expect base_law].
      + exact (iid_map _ _ ulaw (fun u => SNum (inv disc d supp u)) n (fun vs => F (Ok vs))).
      + exact (iid_map _ _ (num_law dlaw d) SNum n (fun vs => F (Ok vs))).
    - cbn [draws SampleSpec.expect base_law]. symmetry. apply (iid_point _ (SNum (toR a)) n (fun vs => F (Ok vs))).
    - cbn [draws SampleSpec.expect base_law]. exact (iid_map _ _ (index_law _) (fun i => SStr (fst (nth i ws (EmptyString, 0%Q)))) n (fun vs => F (Ok vs))).
  Qed.

  Definition at_w (w : asg) (f : asg -> R) (m : sdict) : R := f (onto m w).
  Lemma together_bnd : forall fs w, Forall bnd fs -> bnd (together fs w).
  Proof.
    intros fs w H. destruct (pairs_bnd _ (map (at_w w) fs)) as (M & HM).
    - apply Forall_map. eapply Forall_impl; [|exact H]. intros f Hf. now apply (bnd_comp _ _ (fun m => onto m w) f).
    - exists M. intros [l|e]; [apply HM|]. cbn. rewrite Rabs_R0. eapply Rle_trans; [apply Rabs_pos|apply (HM [])].
  Qed.
  (** what the sample of a leaf says *)
  Lemma tells_place : forall s m u w, wf_leaf s -> tells m (vars s) (leaf_place s w u) -> onto m w = leaf_place s w u.
  Proof.
    intros s m u w W T. extensionality x. destruct (dec (vars s x)) as [V|V]; [now apply (tells_onto m (vars s))|].
    rewrite (leaf_place_out dlaw) by auto. unfold onto. destruct (sget m x) eqn:E; auto. destruct V. apply (proj2 T). congruence.
  Qed.
  Lemma just_env : forall s, wf_leaf s -> just true (map fst (leaf_tenv s)) (leaf_sym s) = true -> forall x, vars s x <-> x = leaf_sym s.
  Proof. intros s W J x. rewrite (leaf_vars (fun _ _ => True) ppf dlaw s x W). exact (just_spec _ _ _ J x). Qed.
  Lemma leaf_dist : forall s fs w, wf_leaf s -> settled s -> inverted s -> Forall bnd fs ->
    (match s with RealLeaf _ _ _ _ true _ => Forall (fun f => step (fun v => f (leaf_place s w v))) fs | _ => True end) ->
    expect (leaf_sample ppf s (List.length fs)) (together fs w) = prodR (map (fun f => den s f w) fs).
  Proof.
    intros s fs w W St Hi Hb Hs. unfold leaf_sample, leaf_subset.
    replace (forallb _ _) with true by (symmetry; apply forallb_forall; intros x Hx; apply existsb_exists; exists x; split; auto; apply String.eqb_refl).
    rewrite expect_bind. rewrite expect_draws by auto. pose proof (base_law_law s W) as L.
    set (h := fun (f : asg -> R) (v : sv) => match fval_of v with Some u => f (leaf_place s w u) | None => 0 end).
    assert (Bh : forall f, bnd f -> bnd (h f)).
    { intros f (M & Hf). exists M. intros v. unfold h. destruct (fval_of v); auto. rewrite Rabs_R0. eapply Rle_trans; [apply Rabs_pos|apply (Hf w)]. }
    transitivity (iid (base_law s) (List.length fs) (pairs (map h fs))).
    - apply (iid_as _ L (fine s) (base_fine s W Hi)).
      + destruct (together_bnd fs w Hb) as (M & HM). exists M. intros vs. destruct (just _ _ _); [apply HM|]. rewrite expect_lift. apply HM.
      + apply pairs_bnd. apply Forall_map. eapply Forall_impl; [|exact Hb]. auto.
      + intros vs _ Hv. destruct (just true (map fst (leaf_tenv s)) (leaf_sym s)) eqn:Ej.
        * cbn [SampleSpec.expect together]. rewrite pairs_map, map_map. rewrite Forall_forall in Hv. apply pairs_ext. intros f v _ Hin. destruct (Hv v Hin) as (u & Eu & _). unfold h. rewrite Eu. f_equal.
          apply tells_place; auto. pose proof (just_env s W Ej) as J. split.
          -- intros x Vx. apply J in Vx. subst x. exists v. cbn. rewrite String.eqb_refl. split; auto. rewrite Eu. f_equal. symmetry. now apply (leaf_place_sym dlaw).
          -- intros x Hx. apply J. cbn in Hx. destruct (String.eqb x (leaf_sym s)) eqn:E; [now apply String.eqb_eq in E|congruence].
        * rewrite expect_lift. rewrite Forall_forall in Hv.
          assert (Sim : forall v, In v vs -> exists m, simulate (leaf_tenv s) (map fst (leaf_tenv s)) [(leaf_sym s, v)] = Ok m /\ forall f, f (onto m w) = h f v).
          { intros v Hin. destruct (Hv v Hin) as (u & Eu & Pu). destruct (leaf_simulate (fun _ _ => True) ppf dlaw s (map fst (leaf_tenv s)) v u w W St Eu Pu) as (r & Er & Tr). exists r. split; auto. intros f. unfold h. rewrite Eu. f_equal.
            apply tells_place; auto. revert Tr. apply tells_iff. intros x. rewrite <- (leaf_vars (fun _ _ => True) ppf dlaw s x W). tauto. }
          destruct (mapM_total _ _ (fun v => simulate (leaf_tenv s) (map fst (leaf_tenv s)) [(leaf_sym s, v)]) vs) as (ms & Em). { intros v Hin. destruct (Sim v Hin) as (m & E & _). eauto. }
          rewrite Em. cbn [together]. apply mapM_Forall2 in Em. apply (pairs_rel _ _ _ (at_w w) h). revert Em. apply Forall2_in. intros v m Hin E f. destruct (Sim v Hin) as (m' & E' & K). rewrite E in E'. injection E' as <-. apply K.
    - replace (List.length fs) with (List.length (map h fs)) by apply map_length. rewrite iid_pairs; auto; [|apply Forall_map; eapply Forall_impl; [|exact Hb]; auto]. rewrite map_map. apply prodR_ext. intros f Hf.
      rewrite den_leaf by (now apply (wf_leaf_leaf dlaw)). rewrite Forall_forall in Hb. apply (base_den s (fun v => f (leaf_place s w v))); auto.
      + apply (bnd_comp _ _ (leaf_place s w) f). auto.
      + destruct s as [disc y d supp [|] env| | | |]; auto. rewrite Forall_forall in Hs. now apply Hs.
  Qed.
End Leaf.

Section Law.
  Context {N : numsys} {S : logsys} {D : distsys N S}.
  Notation spe := (spe D).
  Notation gen := (gen (D:=D)).
  Context (dlaw : dist D -> (fval -> R) -> R) (ulaw : (R -> R) -> R) (slaw : nat -> (list nat -> R) -> R) (ppf : dist D -> R -> R).
  Notation expect := (expect dlaw ulaw slaw).
  Notation wf_leaf := (wf_leaf dlaw).
  Notation wf_spe := (wf_spe dlaw).
  Notation den := (den dlaw).
  Notation den_prod := (den_prod den).
  Notation inverted := (inverted dlaw ppf).
  Context (U : uniform_law ulaw) (Sh : shuffle_law slaw).
  Context (drawn : dist D -> R -> Prop) (Fd : forall disc d, dist_ok dlaw disc d -> num_law dlaw d (ind (drawn d)) = 1).
  Notation uniform := (fun u : R => 0 < u < 1).
  Notation outcome := (outcome drawn uniform).
  Notation valid := (valid drawn dlaw).
  Notation sourced := (sourced drawn dlaw ppf).

  Lemma sourced_inverted : forall s, sourced s -> inverted s.
  Proof.
    induction s as [disc y d supp cond env|y a env|y ws|l IH|l IH] using spe_ind'; cbn; auto.
    - intros H ->. exact H.
    - intros H. apply All_intro. intros c Hc. apply (IH c Hc). exact (All_In _ _ _ c H Hc).
    - intros H. apply All_intro. intros c Hc. apply (IH c Hc). exact (All_In _ _ _ c H Hc).
  Qed.

  (** ** Requests *)
  Lemma sum_probs : forall l, wf_spe (SumSPE l) -> probs (normalize (map (fun w : lg S => toP w / sumR (map toP (map snd l))) (map snd l))) /\ sumR (map toP (map snd l)) = 1.
  Proof.
    intros l (_ & T & _). assert (E : sumR (map toP (map (@snd spe (lg S)) l)) = 1) by (rewrite map_map; exact T). split; auto. rewrite E. apply normalize_probs.
    - apply Forall_map, Forall_forall. intros w _. pose proof (toP_nonneg _ w). unfold Rdiv. rewrite Rinv_1. lra.
    - replace (map (fun w : lg S => toP w / 1) (map snd l)) with (map toP (map (@snd spe (lg S)) l)) by (apply map_ext; intros; field). lra.
  Qed.
  Lemma valid_many : forall A (ws : list (lg S)) n (f : nat -> nat -> gen (list A)), probs (normalize (map (fun w => toP w / sumR (map toP ws)) ws)) -> (forall i k, valid (f i k)) -> valid (sample_many ws n f).
  Proof. intros A ws n f P V. split; auto. intros sel. apply valid_bind; [apply valid_mapM; intros; apply V|]. intros bs. cbn. auto. Qed.
  Lemma valid_draws : forall s n, wf_leaf s -> valid (draws ppf s n).
  Proof.
    intros s n W. destruct s as [disc y d supp cond env|y a env|y ws|l|l]; try contradiction; cbn [draws].
    - destruct W as (_ & _ & Wo & _). destruct cond; cbn; auto. split; auto. split; [now apply (num_law_law dlaw disc)|now apply (Fd disc)].
    - exact I.
    - split; [|cbn; auto]. now apply (nom_probs dlaw y).
  Qed.
  Lemma valid_leaf : forall s b xs n, wf_leaf s -> valid (leaf_subset ppf s b xs n).
  Proof.
    intros s b xs n W. unfold leaf_subset. destruct (forallb _ _); [|exact I]. apply valid_bind; [now apply valid_draws|]. intros vs. destruct (just _ _ _); [exact I|]. destruct (mapM _ _); exact I.
  Qed.
  Lemma valid_child : forall A (l : list (nat -> gen A)), (forall f, In f l -> forall n, valid (f n)) -> forall i n, valid (child l i n).
  Proof. intros A l H i n. unfold child. destruct (nth_in_or_default i l (fun _ => Fail IndexError)) as [K|K]; [now apply H|]. rewrite K. exact I. Qed.
  Lemma valid_sample : forall s, wf_spe s -> forall n, valid (sample ppf s n).
  Proof.
    induction s as [disc y d supp cond env|y a env|y ws|l IH|l IH] using spe_ind'; intros W n; try (apply valid_leaf; exact W).
    - cbn [Sample.sample]. apply valid_many; [now apply sum_probs|]. apply valid_child. intros f Hf. apply in_map_iff in Hf. destruct Hf as (c & <- & Hc). apply IH; auto. now apply (sum_wf dlaw l W).
    - cbn [Sample.sample]. apply valid_bind; [|intros; exact I]. apply valid_mapM. intros f Hf. apply in_map_iff in Hf. destruct Hf as (c & <- & Hc). apply IH; auto. now apply (prod_wf dlaw l W).
  Qed.

  Lemma valid_subset : forall s, wf_spe s -> forall b xs n, valid (sample_subset ppf s b xs n).
  Proof.
    induction s as [disc y d supp cond env|y a env|y ws|l IH|l IH] using spe_ind'; intros W b xs n; try (apply valid_leaf; exact W).
    - cbn [Sample.sample_subset]. apply valid_many; [now apply sum_probs|]. apply valid_child. intros f Hf. apply in_map_iff in Hf. destruct Hf as (c & <- & Hc). intros k. apply IH; auto. now apply (sum_wf dlaw l W).
    - cbn [Sample.sample_subset]. apply valid_bind; [destruct (owners l xs); exact I|]. intros is_. apply valid_bind; [|intros; exact I]. apply valid_mapM. intros i _.
      destruct (nth_in_or_default i (map (fun c => sample_subset ppf c) l) (fun _ _ _ => Fail IndexError)) as [K|K]; [|rewrite K; exact I]. apply in_map_iff in K. destruct K as (c & <- & Hc). apply IH; auto. now apply (prod_wf dlaw l W).
  Qed.
  Lemma valid_lift : forall A (r : res A), valid (lift r).
  Proof. intros A [a|e]; exact I. Qed.
  Lemma valid_func : forall s, wf_spe s -> forall A args (f : list sv -> A) n, valid (sample_func ppf s args f n).
  Proof.
    induction s as [disc y d supp cond env|y a env|y ws|l IH|l IH] using spe_ind'; intros W A args f n; try (cbn [Sample.sample_func]; apply valid_bind; [apply valid_leaf; exact W|intros; apply valid_lift]).
    - cbn [Sample.sample_func]. apply valid_many; [now apply sum_probs|]. apply valid_child. intros g Hg. apply in_map_iff in Hg. destruct Hg as (c & <- & Hc). intros k. apply IH; auto. now apply (sum_wf dlaw l W).
    - cbn [Sample.sample_func]. apply valid_bind; [apply valid_lift|]. intros _. apply valid_bind; [apply (valid_subset (ProductSPE l)); exact W|]. intros; apply valid_lift.
  Qed.
  Lemma probs_pos : forall p, probs p -> exists i, (i < List.length p)%nat /\ 0 < nth i p 0.
  Proof.
    intros p (H & T). destruct (dec (exists i, (i < List.length p)%nat /\ 0 < nth i p 0)) as [K|K]; auto. exfalso. rewrite <- sum_nth in T. rewrite sumR_zero in T; [lra|]. intros i Hi. apply in_seq in Hi.
    rewrite Forall_forall in H. assert (P : 0 <= nth i p 0) by (apply H, nth_In; lia). destruct P as [P|P]; auto. destruct K. exists i. split; [lia|auto].
  Qed.
  Lemma valid_outcome : forall A (g : gen A), valid g -> (forall d, exists x, drawn d x) -> exists r, outcome g r.
  Proof.
    intros A g V Hd. assert (Rp : forall B (P : B -> Prop) b n, P b -> List.length (repeat b n) = n /\ Forall P (repeat b n)).
    { intros B P b n Hb. split; [apply repeat_length|]. apply Forall_forall. intros x Hx. apply repeat_spec in Hx. now subst. }
    induction g as [a|e|p n k IH|m k IH|d n k IH|n k IH]; cbn in V.
    - eexists. constructor.
    - eexists. constructor.
    - destruct V as (P & V). destruct (probs_pos p P) as (i & Hi). destruct (Rp _ (fun i => (i < List.length p)%nat /\ 0 < nth i p 0) i n Hi) as (R1 & R2). destruct (IH _ (V (repeat i n))) as (r & Hr). exists r. now apply (out_flip drawn uniform p n k (repeat i n)).
    - destruct (IH _ (V (seq 0 m))) as (r & Hr). exists r. now apply (out_shuffle drawn uniform m k (seq 0 m)).
    - destruct V as (_ & V). destruct (Hd d) as (x & Hx). destruct (Rp _ (drawn d) x n Hx) as (R1 & R2). destruct (IH _ (V (repeat x n))) as (r & Hr). exists r. now apply (out_rvs drawn uniform d n k (repeat x n)).
    - destruct (Rp _ uniform (/ 2) n ltac:(lra)) as (R1 & R2). destruct (IH _ (V (repeat (/ 2) n))) as (r & Hr). exists r. now apply (out_unif drawn uniform n k (repeat (/ 2) n)).
  Qed.

  (** ** Fair functions *)
  Notation fair_rect s := (Forall (fun p => fair s (fst p) (snd p))).
  Lemma fair_bnd : forall (s : spe) x g, fair s x g -> bnd g.
  Proof. intros s x g H. destruct s; apply H. Qed.
  Lemma fair_ok : forall (s : spe) L, fair_rect s L -> rect_ok L.
  Proof. intros s L H. eapply Forall_impl; [|exact H]. intros p. apply fair_bnd. Qed.
  Lemma fair_combo : forall (s : spe) f, fair_fun s f -> exists T, Forall (fun t => fair_rect s (snd t)) T /\ forall w, f w = combo T w.
  Proof.
    intros s. induction 1 as [c|x g Hg|f g _ (T & HT & ET) _ (V & HV & EV)|f g _ (T & HT & ET) _ (V & HV & EV)|f g E _ (T & HT & ET)].
    - exists [(c, [])]. split; [repeat constructor|]. intros w. unfold combo, rect. simpl. ring.
    - exists [(1, [(x, g)])]. split; [repeat constructor; auto|]. intros w. unfold combo, rect. simpl. ring.
    - exists (T ++ V). split; [now apply Forall_app|]. intros w. now rewrite combo_app, ET, EV.
    - eexists. split; [|intro w; rewrite ET, EV, <- combo_mult; reflexivity]. apply Forall_concat, Forall_map. eapply Forall_impl; [|exact HT].
      intros t Ht. apply Forall_map. eapply Forall_impl; [|exact HV]. intros u Hu'. simpl. now apply Forall_app.
    - exists T. split; auto. intro w. now rewrite <- E.
  Qed.
  Lemma fair_step : forall disc y d supp env L w, wf_leaf (RealLeaf disc y d supp true env) -> fair_rect (RealLeaf disc y d supp true env) L -> step (fun v => rect L (place y env w v)).
  Proof.
    intros disc y d supp env L w W H. destruct W as (_ & _ & _ & _ & (Wb & _) & _). induction H as [|p L (Hb & Hp) H IH]; [exact (step_const 1)|].
    apply (step_mult (fun v => snd p (place y env w v (fst p))) (fun v => rect L (place y env w v))); auto.
    destruct (dec (In (fst p) (map fst env))) as [V|V]; [now apply Hp|].
    apply (step_ext (fun _ => snd p (w (fst p)))); [|intros v _; now rewrite place_out|apply step_const].
    apply (bnd_comp _ _ (fun v => place y env w v (fst p)) (snd p)). exact Hb.
  Qed.

  (** ** Products *)
  Fixpoint zips (n : nat) (ls : list (list sdict)) : list sdict := match ls with [] => repeat [] n | a :: ls => zip2 a (zips n ls) end.
  Lemma zip2_nil : forall n a, List.length a = n -> zip2 a (repeat [] n) = a.
  Proof. induction n as [|n IH]; intros [|m a] E; cbn in *; try discriminate; auto. rewrite app_nil_r. f_equal. apply IH. congruence. Qed.
  Lemma zips_merge : forall n ls, ls <> [] -> Forall (fun a => List.length a = n) ls -> zips n ls = merge_samples ls.
  Proof.
    intros n. induction ls as [|a ls IH]; intros Hn F; [congruence|]. inversion F as [|? ? F1 F2]; subst. destruct ls as [|b ls]; [cbn; now apply zip2_nil|].
    change (zip2 a (zips (List.length a) (b :: ls)) = zip2 a (merge_samples (b :: ls))). f_equal. apply IH; auto. discriminate.
  Qed.
  Lemma zips_le : forall n ls, (List.length (zips n ls) <= n)%nat.
  Proof.
    assert (Z : forall a b, (List.length (zip2 a b) <= List.length b)%nat). { induction a as [|x a IH]; intros [|y b]; cbn; try lia. specialize (IH b). lia. }
    intros n. induction ls as [|a ls IH]; cbn; [now rewrite repeat_length|]. eapply Nat.le_trans; [apply Z|exact IH].
  Qed.
  Lemma onto_rect_in : forall (V : string -> Prop) m L w w', complete m V -> rect (inside V L) (onto m w) = rect (inside V L) (onto m w').
  Proof.
    intros V m L w w' C. unfold rect. apply prodR_ext. intros p Hp. apply inside_in in Hp. f_equal. destruct (proj1 (C (fst p)) (proj2 Hp)) as (v & u & E & _). unfold onto. now rewrite E.
  Qed.
  Lemma onto_rect_out : forall (V : string -> Prop) m L w, only_keys m V -> rect (outside V L) (onto m w) = rect (outside V L) w.
  Proof.
    intros V m L w C. unfold rect. apply prodR_ext. intros p Hp. apply outside_in in Hp. f_equal. unfold onto. destruct (sget m (fst p)) eqn:E; auto. destruct Hp as (_ & K). destruct K. apply C. congruence.
  Qed.
  Lemma zip_pairs : forall (V : string -> Prop) w Ls a r, List.length a = List.length Ls -> Forall (fun m => complete m V /\ only_keys m V) a -> (List.length r <= List.length Ls)%nat ->
    pairs (map (fun L m => rect L (onto m w)) Ls) (zip2 a r) = pairs (map (fun L m => rect (inside V L) (onto m w)) Ls) a * pairs (map (fun L m => rect (outside V L) (onto m w)) Ls) r.
  Proof.
    intros V w. induction Ls as [|L Ls IH]; intros [|m a] [|m' r] E F Hr; cbn in E, Hr; try discriminate; try lia; cbn [zip2 map pairs]; try ring.
    inversion F as [|? ? (C & K) F2]; subst. rewrite (IH a r) by (auto; lia). rewrite (rect_split V L (onto (m ++ m') w)), onto_app.
    rewrite (onto_rect_in V m L _ w C), (onto_rect_out V m L _ K). ring.
  Qed.
  Notation told s := (Forall (fun m => complete m (vars s) /\ only_keys m (vars s))).
  Lemma sample_told : forall s n l, wf_spe s -> settled s -> sourced s -> outcome (sample ppf s n) (Ok l) -> told s l.
  Proof.
    intros s n l W St So H. apply (sample_fits drawn uniform ppf dlaw (fun u K => K) s W St So) in H. eapply Forall_impl; [|exact H]. intros m (w & _ & T). now apply tells_complete in T.
  Qed.
  Lemma expect_scale : forall A (g : gen A) c f, valid g -> bnd f -> expect g (fun r => c * f r) = c * expect g f.
  Proof. intros A g c f V Hf. apply (law_scale (expect_law drawn dlaw ulaw slaw (u_law _ U) Sh _ g V)). exact Hf. Qed.
  Definition zipped (n : nat) (r : res (list (list sdict))) : res (list sdict) := match r with Ok ls => Ok (zips n ls) | Raise e => Raise e end.
  Lemma together_rect : forall Ls w r, together (map rect Ls) w r = match r with Ok l => pairs (map (fun L m => rect L (onto m w)) Ls) l | Raise _ => 0 end.
  Proof. intros Ls w [l|e]; [|reflexivity]. cbn [together]. now rewrite map_map. Qed.
  Lemma prod_dist : forall l, All wf_spe l -> All settled l -> All sourced l -> ForallOrdPairs apart l -> forall Ls w, Forall rect_ok Ls ->
    (forall c, In c l -> forall Ls', Forall rect_ok Ls' -> (forall L', In L' Ls' -> exists L, In L Ls /\ incl L' L) -> List.length Ls' = List.length Ls ->
      expect (sample ppf c (List.length Ls)) (together (map rect Ls') w) = prodR (map (fun L => den c (rect L) w) Ls')) ->
    expect (gmapM (fun f => f (List.length Ls)) (map (sample ppf) l)) (fun r => together (map rect Ls) w (zipped (List.length Ls) r)) = prodR (map (fun L => den_prod l (rect L) w) Ls).
  Proof.
    induction l as [|c l IH]; intros W St So Ap Ls w HL Hc.
    - cbn [map gmapM SampleSpec.expect zipped zips]. rewrite together_rect. clear. cbn [SpeSpec.den_prod]. induction Ls as [|L Ls IH]; cbn; [reflexivity|]. rewrite IH. reflexivity.
    - destruct W as (Wc & W), St as (Sc & St), So as (Oc & So). inversion Ap as [|? ? Ac Al]; subst. set (n := List.length Ls) in *. pose proof (apart_pvars c l Ac) as Avs.
      set (V := vars c). set (Li := map (inside V) Ls). set (Lo := map (outside V) Ls).
      assert (Hi : Forall rect_ok Li) by (apply Forall_map; eapply Forall_impl; [|exact HL]; intros; now apply rect_ok_inside).
      assert (Ho : Forall rect_ok Lo) by (apply Forall_map; eapply Forall_impl; [|exact HL]; intros; now apply rect_ok_outside).
      assert (Vm : valid (gmapM (fun f : nat -> gen (list sdict) => f n) (map (sample ppf) l))).
      { apply valid_mapM. intros f Hf. apply in_map_iff in Hf. destruct Hf as (e & <- & He). apply valid_sample. exact (All_In _ _ _ e W He). }
      assert (Bt : forall M, Forall rect_ok M -> bnd (together (map rect M) w)).
      { intros M HM. apply together_bnd. apply Forall_map. eapply Forall_impl; [|exact HM]. intros; now apply rect_bnd. }
      assert (Bz : forall M, Forall rect_ok M -> bnd (fun r => together (map rect M) w (zipped n r))) by (intros M HM; now apply (bnd_comp _ _ (zipped n)), Bt).
      cbn [map gmapM]. rewrite expect_bind.
      set (X := expect (gmapM (fun f : nat -> gen (list sdict) => f n) (map (sample ppf) l)) (fun r => together (map rect Lo) w (zipped n r))).
      transitivity (expect (sample ppf c n) (fun r => X * together (map rect Li) w r)).
      + apply (expect_as drawn uniform dlaw ulaw slaw (u_law _ U) (u_in _ U) Sh).
        * now apply valid_sample.
        * destruct (Bt Ls HL) as (M & HM). exists M. intros [a|e]; [|exact (HM (Raise e))].
          rewrite expect_bind. apply (law_bound (expect_law drawn dlaw ulaw slaw (u_law _ U) Sh _ _ Vm)). intros [ls|e]; apply HM.
        * apply bnd_scale. now apply Bt.
        * intros [a|e] Hr; [|cbn; ring]. rewrite expect_bind. cbn [SampleSpec.expect]. rewrite Rmult_comm. unfold X. rewrite <- expect_scale by auto. apply expect_ext. intros [ls|e]; [|cbn; ring].
          cbn [zipped]. rewrite !together_rect. unfold Li, Lo. rewrite !map_map. cbn [zips]. apply (zip_pairs V).
          -- apply (sample_length drawn uniform ppf dlaw c Wc) in Hr. exact Hr.
          -- exact (sample_told c n a Wc Sc Oc Hr).
          -- apply zips_le.
      + rewrite expect_scale by (auto using valid_sample). rewrite Rmult_comm. unfold X.
        replace (expect (sample ppf c n) (together (map rect Li) w)) with (prodR (map (fun L => den c (rect L) w) Li)).
        * replace n with (List.length Lo) by apply map_length. rewrite (IH W St So Al Lo w Ho).
          -- unfold Li, Lo. rewrite !map_map, <- prodR_mult. apply prodR_ext. intros L HLi. rewrite Forall_forall in HL. symmetry.
             transitivity (den_prod (c :: l) (fun a => rect (inside V L) a * rect (outside V L) a) w).
             { apply (prod_reach_wf dlaw (c :: l)); [split; auto|]. intros. apply rect_split. }
             apply (prod_split dlaw); auto using rect_bnd, rect_ok_inside, rect_ok_outside.
             ++ apply rect_ignores. intros p Hp K. apply inside_in in Hp. exact (Avs _ (proj2 Hp) K).
             ++ apply rect_ignores. intros p Hp. apply outside_in in Hp. tauto.
          -- intros e He Ls' Ok' Inc Len. replace (List.length Lo) with n in * by (symmetry; apply map_length). apply Hc; auto; [now right|].
             intros L' HL'. destruct (Inc L' HL') as (L & HLo & I1). unfold Lo in HLo. apply in_map_iff in HLo. destruct HLo as (L0 & <- & H0). exists L0. split; auto. intros p Hp. apply I1, outside_in in Hp. tauto.
        * symmetry. apply Hc; auto; [now left| |apply map_length]. intros L' HL'. unfold Li in HL'. apply in_map_iff in HL'. destruct HL' as (L0 & <- & H0). exists L0. split; auto. intros p Hp. apply inside_in in Hp. tauto.
  Qed.
  Lemma prod_lengths : forall l n ls, All wf_spe l -> outcome (gmapM (fun f : nat -> gen (list sdict) => f n) (map (sample ppf) l)) (Ok ls) -> Forall (fun a => List.length a = n) ls /\ List.length ls = List.length l.
  Proof.
    intros l n ls W H. apply out_mapM, Forall2_map_inv in H. split.
    - eapply Forall2_right; [exact H|]. intros c a Hc K. apply (sample_length drawn uniform ppf dlaw c) in K; auto. exact (All_In _ _ _ c W Hc).
    - clear - H. induction H; cbn; congruence.
  Qed.
  (** ** One choice *)
  Lemma shuffle_one : forall (F : res (list sdict) -> R) b, slaw 1 (fun perm => F (Ok (List.concat (map (fun j => nth j [b] []) perm)))) = F (Ok b).
  Proof.
    intros F b. destruct (Sh 1%nat) as (L & E). transitivity (slaw 1 (fun _ => F (Ok b))); [|apply (law_const L)]. apply E. intros p Hp. apply Permutation_length_1_inv in Hp. subst p. cbn. now rewrite app_nil_r.
  Qed.
  Lemma expect_many_one : forall (ws : list (lg S)) (f : nat -> nat -> gen (list sdict)) F,
    expect (sample_many ws 1 f) F = index_law (normalize (map (fun w => toP w / sumR (map toP ws)) ws)) (fun i => expect (f i 1%nat) F).
  Proof.
    intros ws f F. unfold sample_many. cbn [SampleSpec.expect iid]. apply law_ext. intros i. rewrite expect_bind.
    change (keys_of [i]) with [i]. cbn [gmapM]. rewrite !expect_bind. cbn [count_occ]. destruct (Nat.eq_dec i i) as [_|Ne]; [|congruence].
    apply expect_ext. intros [b|e]; cbn [gbind SampleSpec.expect List.length]; [apply shuffle_one|reflexivity].
  Qed.
  Lemma index_weights : forall (l : list (spe * lg S)) (phi : nat -> R), sumR (map toP (map snd l)) = 1 ->
    index_law (normalize (map (fun w => toP w / sumR (map toP (map snd l))) (map snd l))) phi = sumR (map (fun i => toP (snd (nth i l (SumSPE [], lninf))) * phi i) (seq 0 (List.length l))).
  Proof.
    intros l phi T. rewrite T. unfold index_law, normalize. rewrite !map_length. apply sumR_ext. intros i Hi. apply in_seq in Hi. f_equal.
    replace (sumR (map (fun w : lg S => toP w / 1) (map snd l))) with 1 by (symmetry; transitivity (sumR (map toP (map snd l))); [apply sumR_ext; intros; field|exact T]).
    rewrite (nth_map_in _ _ _ _ i 0 0) by (rewrite !map_length; lia). rewrite (nth_map_in _ _ _ _ i 0 lninf) by (rewrite map_length; lia). rewrite (nth_map_in _ _ _ l i lninf (SumSPE [], lninf)) by lia. field.
  Qed.
  Lemma sum_index : forall A (l : list A) d (f : A -> R), sumR (map (fun i => f (nth i l d)) (seq 0 (List.length l))) = sumR (map f l).
  Proof. intros A l d f. rewrite <- (map_map (fun i => nth i l d) f). now rewrite nth_seq_id. Qed.
  Lemma child_sum : forall (l : list (spe * lg S)) i n, (i < List.length l)%nat -> child (map (fun c => sample ppf (fst c)) l) i n = sample ppf (fst (nth i l (SumSPE [], lninf))) n.
  Proof. intros l i n Hi. unfold child. now rewrite (nth_map_in _ _ (fun c : spe * lg S => sample ppf (fst c)) l i _ (SumSPE [], lninf)). Qed.

  Theorem rect_dist : forall s, wf_spe s -> settled s -> sourced s -> forall Ls w, Forall (fair_rect s) Ls -> sumfree s \/ List.length Ls = 1%nat ->
    expect (sample ppf s (List.length Ls)) (together (map rect Ls) w) = prodR (map (fun L => den s (rect L) w) Ls).
  Proof.
    assert (Lf : forall s, wf_leaf s -> settled s -> sourced s -> forall Ls w, Forall (fair_rect s) Ls ->
      expect (leaf_sample ppf s (List.length Ls)) (together (map rect Ls) w) = prodR (map (fun L => den s (rect L) w) Ls)).
    { intros s W St So Ls w HL. rewrite <- (map_map rect (fun f => den s f w)). rewrite <- (map_length rect Ls) at 1. apply leaf_dist; auto.
      - now apply sourced_inverted.
      - apply Forall_map. eapply Forall_impl; [|exact HL]. intros L H. apply rect_bnd. now apply (fair_ok s).
      - destruct s as [disc y d supp [|] env| | | |]; auto. apply Forall_map. eapply Forall_impl; [|exact HL]. intros L H. cbn [leaf_place]. now apply (fair_step disc y d supp env L w). }
    induction s as [disc y d supp cond env|y a env|y ws|l IH|l IH] using spe_ind'; intros W St So Ls w HL Hs; try (apply Lf; auto; fail).
    - destruct Hs as [[]|Hs]. destruct Ls as [|L [|? ?]]; try discriminate. cbn [List.length]. cbn [Sample.sample]. rewrite expect_many_one. destruct (sum_probs l W) as (P & T). rewrite index_weights by auto.
      cbn [map prodR fold_right]. rewrite Rmult_1_r. cbn [SpeSpec.den]. rewrite <- (sum_index _ l (SumSPE [], lninf)). apply sumR_ext. intros i Hi. apply in_seq in Hi. f_equal. rewrite child_sum by lia. set (c := nth i l (SumSPE [], lninf)).
      assert (Hc : In c l) by (apply nth_In; lia). transitivity (prodR (map (fun L => den (fst c) (rect L) w) [L])); [|cbn; ring]. apply (IH c Hc (sum_wf dlaw l W c Hc) (All_In _ _ _ c St Hc) (All_In _ _ _ c So Hc) [L] w).
      + constructor; [|constructor]. inversion HL as [|? ? HL1 _]; subst. eapply Forall_impl; [|exact HL1]. intros p (_ & Hp). exact (All_In _ _ _ c Hp Hc).
      + now right.
    - cbn [Sample.sample]. destruct W as (Wn & Wl & Wa). rewrite expect_bind. transitivity (prodR (map (fun L => den_prod l (rect L) w) Ls)); [|reflexivity]. rewrite <- (prod_dist l Wl St So Wa Ls w).
      + apply (expect_as drawn uniform dlaw ulaw slaw (u_law _ U) (u_in _ U) Sh).
        * apply valid_mapM. intros f Hf. apply in_map_iff in Hf. destruct Hf as (e & <- & He). apply valid_sample. exact (All_In _ _ _ e Wl He).
        * destruct (together_bnd (map rect Ls) w) as (M & HM). { apply Forall_map. eapply Forall_impl; [|exact HL]. intros L H. apply rect_bnd. now apply (fair_ok (ProductSPE l)). }
          exists M. intros [ls|e]; apply HM.
        * apply (bnd_comp _ _ (zipped (List.length Ls))). apply together_bnd. apply Forall_map. eapply Forall_impl; [|exact HL]. intros L H. apply rect_bnd. now apply (fair_ok (ProductSPE l)).
        * intros [ls|e] Hr; [|reflexivity]. cbn [SampleSpec.expect zipped]. destruct (prod_lengths l _ ls Wl Hr) as (H1 & H2). rewrite zips_merge; auto. intros ->. destruct l; [congruence|discriminate].
      + eapply Forall_impl; [|exact HL]. intros L. apply fair_ok.
      + intros c Hc Ls' _ Inc Len. rewrite <- Len. apply (IH c Hc (All_In _ _ _ c Wl Hc) (All_In _ _ _ c St Hc) (All_In _ _ _ c So Hc)).
        * apply Forall_forall. intros L' HL'. destruct (Inc L' HL') as (L & Hin & I1). rewrite Forall_forall in HL. specialize (HL L Hin). rewrite Forall_forall in HL. apply Forall_forall. intros p Hp. destruct (HL p (I1 p Hp)) as (_ & K). exact (All_In _ _ _ c K Hc).
        * destruct Hs as [Hs|Hs]; [left; exact (All_In _ _ _ c Hs Hc)|right; congruence].
  Qed.

  (** ** From products of functions of one variable to all fair functions *)
  Lemma fair_fun_bnd : forall (s : spe) f, fair_fun s f -> bnd f.
  Proof.
    intros s f H. destruct (fair_combo s f H) as (T & HT & E). replace f with (combo T) by (extensionality a; auto). apply bnd_sum. intros t Ht. apply bnd_scale. rewrite Forall_forall in HT. now apply rect_bnd, (fair_ok s), HT.
  Qed.
  Theorem fair_dist : forall s w, wf_spe s -> settled s -> sourced s -> forall fs, Forall (fair_fun s) fs -> forall Ls, Forall (fair_rect s) Ls -> sumfree s \/ (List.length Ls + List.length fs = 1)%nat ->
    expect (sample ppf s (List.length Ls + List.length fs)) (together (map rect Ls ++ fs) w) = prodR (map (fun L => den s (rect L) w) Ls) * prodR (map (fun f => den s f w) fs).
  Proof.
    intros s w W St So fs Hf. induction Hf as [|f fs Hf Hfs IH]; intros Ls HL Hn.
    - cbn [List.length] in *. rewrite Nat.add_0_r in *. rewrite app_nil_r. rewrite rect_dist by auto. cbn. ring.
    - destruct (fair_combo s f Hf) as (T & HT & E). pose proof (den_kernel dlaw s W w) as Ld. rewrite Forall_forall in HT.
      set (n := (List.length Ls + List.length (f :: fs))%nat) in *.
      pose proof (expect_law drawn dlaw ulaw slaw (u_law _ U) Sh _ _ (valid_sample s W n)) as Le.
      assert (Bt : forall t, In t T -> bnd (together (map rect Ls ++ rect (snd t) :: fs) w)).
      { intros t Ht. apply together_bnd. apply Forall_app. split; [|constructor].
        - apply Forall_map. eapply Forall_impl; [|exact HL]. intros L H. apply rect_bnd. now apply (fair_ok s).
        - apply rect_bnd, (fair_ok s). now apply HT.
        - eapply Forall_impl; [|exact Hfs]. apply fair_fun_bnd. }
      transitivity (expect (sample ppf s n) (fun r => sumR (map (fun t => fst t * together (map rect Ls ++ rect (snd t) :: fs) w r) T))).
      + apply expect_ext. intros [l|e]; cbn [together].
        * rewrite !map_app. cbn [map]. rewrite (pairs_mid _ _ (map (fun g m => g (onto m w)) (map rect Ls)) (map (fun g m => g (onto m w)) fs) l T fst (fun t m => rect (snd t) (onto m w)) (fun m => f (onto m w))).
          -- apply sumR_ext. intros t _. now rewrite map_app.
          -- intros m. rewrite E. reflexivity.
        * symmetry. apply sumR_zero. intros; ring.
      + rewrite (law_sum Le) by (intros; apply bnd_scale; auto). cbn [map prodR fold_right]. fold (prodR (map (fun f => den s f w) fs)).
        replace (den s f w) with (sumR (map (fun t => fst t * den s (rect (snd t)) w) T)).
        * rewrite <- !sumR_scale. rewrite (Rmult_comm (prodR (map (fun L => den s (rect L) w) Ls))). rewrite <- !sumR_scale. apply sumR_ext. intros t Ht. rewrite (law_scale Le) by auto.
          assert (K : expect (sample ppf s n) (together (map rect Ls ++ rect (snd t) :: fs) w) = prodR (map (fun L => den s (rect L) w) Ls) * den s (rect (snd t)) w * prodR (map (fun f => den s f w) fs)).
          { specialize (IH (Ls ++ [snd t])). rewrite app_length in IH. cbn [List.length] in IH. replace (List.length Ls + 1 + List.length fs)%nat with n in IH by (unfold n; cbn; lia).
            rewrite map_app in IH. cbn [map] in IH. rewrite <- app_assoc in IH. cbn [app] in IH. rewrite IH.
            - rewrite map_app, prodR_app. cbn. ring.
            - apply Forall_app. split; auto.
            - exact Hn. }
          rewrite K. ring.
        * rewrite <- (den_combo dlaw s T w W); [now replace f with (combo T) by (extensionality a; auto)|]. apply Forall_forall. intros t Ht. apply (fair_ok s), HT, Ht.
  Qed.

  (** ** Means *)
  Lemma total_bnd : forall f n w, bnd f -> bnd (total f n w).
  Proof.
    intros f n w Hf. destruct (upto_bnd _ (fun m => f (onto m w)) n) as (M & HM). { now apply (bnd_comp _ _ (fun m => onto m w) f). }
    exists M. intros [l|e]; [apply HM|]. cbn. rewrite Rabs_R0. eapply Rle_trans; [apply Rabs_pos|apply (HM [])].
  Qed.
  Lemma sumfree_mean : forall s f n w, wf_spe s -> settled s -> sourced s -> sumfree s -> fair_fun s f -> expect (sample ppf s n) (total f n w) = INR n * den s f w.
  Proof.
    intros s f n w W St So Hs Hf. pose proof (expect_law drawn dlaw ulaw slaw (u_law _ U) Sh _ _ (valid_sample s W n)) as Le. pose proof (fair_fun_bnd s f Hf) as Bf.
    set (one := fun _ : asg => 1). set (fs := fun j => repeat one j ++ f :: repeat one (n - 1 - j)).
    assert (Ff : forall j, Forall (fair_fun s) (fs j)).
    { intros j. apply Forall_app. split; [|constructor; auto]; apply Forall_forall; intros g Hg; apply repeat_spec in Hg; subst g; exact (fair_const s 1). }
    assert (Bj : forall j, bnd (together (fs j) w)). { intros j. apply together_bnd. eapply Forall_impl; [|apply Ff]. apply fair_fun_bnd. }
    transitivity (expect (sample ppf s n) (fun r => sumR (map (fun j => together (fs j) w r) (seq 0 n)))).
    - apply (expect_as drawn uniform dlaw ulaw slaw (u_law _ U) (u_in _ U) Sh).
      + now apply valid_sample.
      + now apply total_bnd.
      + apply bnd_sum. auto.
      + intros [l|e] Hr; cbn [total together]; [|symmetry; now apply sumR_zero]. apply (sample_length drawn uniform ppf dlaw s W) in Hr. rewrite <- Hr at 1. rewrite upto_full. rewrite <- (sum_index _ l [] (fun m => f (onto m w))), Hr.
        apply sumR_ext. intros j Hj. apply in_seq in Hj. unfold fs. rewrite map_app, map_repeat. cbn [map]. rewrite map_repeat. symmetry. subst n. apply (pairs_single _ (fun m => f (onto m w))). lia.
    - rewrite (law_sum Le) by auto. transitivity (sumR (map (fun _ : nat => den s f w) (seq 0 n))).
      + apply sumR_ext. intros j Hj. apply in_seq in Hj. pose proof (fair_dist s w W St So (fs j) (Ff j) [] (Forall_nil _) (or_introl Hs)) as K. cbn [map app List.length] in K.
        replace (0 + List.length (fs j))%nat with n in K by (unfold fs; rewrite app_length; cbn [List.length]; rewrite !repeat_length; lia). etransitivity; [exact K|]. unfold fs. rewrite map_app, map_repeat, prodR_app. cbn [map]. rewrite map_repeat.
        assert (E1 : den s one w = 1) by (unfold one; apply (law_one (den_kernel dlaw s W w))). rewrite E1. assert (Er : forall k, prodR (repeat 1 k) = 1) by (induction k as [|k IHk]; cbn; [reflexivity|fold (prodR (repeat 1 k)); rewrite IHk; ring]). cbn [prodR fold_right]. fold (prodR (repeat 1 (n - 1 - j))). rewrite !Er. cbn. ring.
      + clear. generalize 0%nat at 1. induction n as [|n IH]; intros k; [cbn; ring|]. rewrite S_INR. cbn [seq map sumR fold_right]. fold (sumR (map (fun _ : nat => den s f w) (seq (Datatypes.S k) n))). rewrite IH. ring.
  Qed.

  Lemma fair_child : forall (l : list (spe * lg S)) c f, In c l -> fair_fun (SumSPE l) f -> fair_fun (fst c) f.
  Proof.
    intros l c f Hc. induction 1 as [k|x g Hg|f g _ IH1 _ IH2|f g _ IH1 _ IH2|f g E _ IH].
    - constructor.
    - constructor. destruct Hg as (_ & Hg). exact (All_In _ _ _ c Hg Hc).
    - now constructor.
    - now constructor.
    - now apply (fair_ext _ f).
  Qed.
  Lemma iid_upto : forall A (I : (A -> R) -> R) phi n, law I -> bnd phi -> iid I n (upto phi n) = INR n * I phi.
  Proof.
    intros A I phi n L Hp. induction n as [|n IH]; [cbn; ring|]. rewrite S_INR. cbn [iid].
    transitivity (I (fun a => phi a + iid I n (upto phi n))).
    - apply law_ext. intros a. cbn [upto]. rewrite (law_plus (iid_law I L n) (fun _ => phi a) (upto phi n)) by (auto using bnd_const, upto_bnd). now rewrite (law_const (iid_law I L n)).
    - rewrite (law_plus L) by auto using bnd_const. rewrite (law_const L), IH. ring.
  Qed.
  (** the samples of the blocks, added *)
  Fixpoint block_sum (phi : sdict -> R) (cnt : nat -> nat) (ks : list nat) (bs : list (list sdict)) : R :=
    match ks, bs with i :: ks, b :: bs => upto phi (cnt i) b + block_sum phi cnt ks bs | _, _ => 0 end.
  Definition block_total (phi : sdict -> R) (cnt : nat -> nat) (ks : list nat) (r : res (list (list sdict))) : R :=
    match r with Ok bs => block_sum phi cnt ks bs | Raise _ => 0 end.
  Lemma block_bnd : forall phi cnt ks, bnd phi -> bnd (block_total phi cnt ks).
  Proof.
    intros phi cnt ks Hp. assert (K : bnd (block_sum phi cnt ks)).
    { induction ks as [|i ks (M & IH)]; [exists 0; intros [|b bs]; cbn; rewrite Rabs_R0; lra|]. destruct (upto_bnd _ phi (cnt i) Hp) as (K & HK). exists (Rabs K + Rabs M). intros [|b bs]; cbn; [rewrite Rabs_R0; pose proof (Rabs_pos K); pose proof (Rabs_pos M); lra|].
      eapply Rle_trans; [apply Rabs_triang|]. apply Rplus_le_compat; [eapply Rle_trans; [apply HK|apply Rle_abs]|eapply Rle_trans; [apply IH|apply Rle_abs]]. }
    destruct K as (M & HM). exists M. intros [bs|e]; [apply HM|]. cbn. rewrite Rabs_R0. eapply Rle_trans; [apply Rabs_pos|apply (HM [])].
  Qed.
  Lemma block_ok : forall phi cnt ks bs, Forall2 (fun i b => List.length b = cnt i) ks bs -> block_sum phi cnt ks bs = sumR (map phi (List.concat bs)).
  Proof. intros phi cnt ks bs H. induction H as [|i b ks bs E H IH]; cbn; [reflexivity|]. rewrite map_app, sumR_app, IH, <- E. now rewrite upto_full. Qed.
  Lemma blocks_mean : forall (g : nat -> nat -> gen (list sdict)) f cnt w (mu : nat -> R) ks, bnd f -> (forall i k, valid (g i k)) ->
    (forall i, In i ks -> (forall r, outcome (g i (cnt i)) r -> exists b, r = Ok b) /\ expect (g i (cnt i)) (total f (cnt i) w) = INR (cnt i) * mu i) ->
    expect (gmapM (fun i => g i (cnt i)) ks) (block_total (fun m => f (onto m w)) cnt ks) = sumR (map (fun i => INR (cnt i) * mu i) ks).
  Proof.
    intros g f cnt w mu ks Hf V. set (phi := fun m => f (onto m w)). assert (Bp : bnd phi) by now apply (bnd_comp _ _ (fun m => onto m w) f).
    induction ks as [|i ks IH]; intros H; [reflexivity|]. assert (Vk : valid (gmapM (fun i => g i (cnt i)) ks)) by (apply valid_mapM; intros; apply V).
    pose proof (expect_law drawn dlaw ulaw slaw (u_law _ U) Sh _ _ Vk) as Lk. pose proof (expect_law drawn dlaw ulaw slaw (u_law _ U) Sh _ _ (V i (cnt i))) as Li.
    assert (H' : forall j, In j ks -> (forall r, outcome (g j (cnt j)) r -> exists b, r = Ok b) /\ expect (g j (cnt j)) (total f (cnt j) w) = INR (cnt j) * mu j) by (intros; apply H; now right).
    destruct (H i (or_introl eq_refl)) as (Hi & Ei). cbn [gmapM map sumR fold_right]. fold (sumR (map (fun i => INR (cnt i) * mu i) ks)). rewrite <- (IH H'). rewrite expect_bind.
    set (C := expect (gmapM (fun i => g i (cnt i)) ks) (block_total phi cnt ks)). rewrite <- Ei.
    transitivity (expect (g i (cnt i)) (fun r => total f (cnt i) w r + C)).
    - apply (expect_as drawn uniform dlaw ulaw slaw (u_law _ U) (u_in _ U) Sh).
      + apply V.
      + destruct (block_bnd phi cnt (i :: ks) Bp) as (M & HM). exists M. intros [b|e]; [|exact (HM (Raise e))]. rewrite expect_bind. apply (law_bound Lk). intros [bs|e]; [exact (HM (Ok (b :: bs)))|exact (HM (Raise e))].
      + apply bnd_plus; [now apply total_bnd|apply bnd_const].
      + intros r Hr. destruct (Hi r Hr) as (b & ->). rewrite expect_bind. cbn [total]. transitivity (expect (gmapM (fun i => g i (cnt i)) ks) (fun r => upto phi (cnt i) b + block_total phi cnt ks r)).
        * apply (expect_as drawn uniform dlaw ulaw slaw (u_law _ U) (u_in _ U) Sh); auto.
          -- destruct (block_bnd phi cnt (i :: ks) Bp) as (M & HM). exists M. intros [bs|e]; [exact (HM (Ok (b :: bs)))|exact (HM (Raise e))].
          -- apply (bnd_plus _ (fun _ => upto phi (cnt i) b)); [apply bnd_const|now apply block_bnd].
          -- intros r' Hr'. assert (K : exists bs, r' = Ok bs). { apply (out_mapM_all drawn uniform) in Hr'; auto. intros a r0 Ha. now apply H'. } destruct K as (bs & ->). reflexivity.
        * rewrite (law_plus Lk (fun _ => upto phi (cnt i) b)) by (auto using bnd_const, block_bnd). now rewrite (law_const Lk).
    - rewrite (law_plus Li (total f (cnt i) w) (fun _ => C)) by (auto using bnd_const, total_bnd). now rewrite (law_const Li).
  Qed.
  Lemma count_sum : forall (phi : nat -> R) ks sel, NoDup ks -> (forall x, In x sel -> In x ks) -> sumR (map (fun i => INR (count_occ Nat.eq_dec sel i) * phi i) ks) = sumR (map phi sel).
  Proof.
    intros phi ks sel Nd. induction sel as [|x sel IH]; intros H; [apply sumR_zero; intros; cbn; ring|]. cbn [map sumR fold_right]. fold (sumR (map phi sel)). rewrite <- IH by (intros; apply H; now right).
    assert (Hx : In x ks) by (apply H; now left). clear H IH. induction ks as [|k ks IH]; [contradiction|]. inversion Nd; subst. cbn [map sumR fold_right]. fold (sumR (map (fun i => INR (count_occ Nat.eq_dec (x :: sel) i) * phi i) ks)). fold (sumR (map (fun i => INR (count_occ Nat.eq_dec sel i) * phi i) ks)).
    destruct Hx as [->|Hx].
    - rewrite count_occ_cons_eq by reflexivity. rewrite S_INR. replace (sumR (map (fun i => INR (count_occ Nat.eq_dec (x :: sel) i) * phi i) ks)) with (sumR (map (fun i => INR (count_occ Nat.eq_dec sel i) * phi i) ks)); [ring|].
      apply sumR_ext. intros i Hi. rewrite count_occ_cons_neq; auto. intros ->. auto.
    - rewrite count_occ_cons_neq by (intros ->; auto). rewrite IH by auto. ring.
  Qed.

  Theorem flat_mean : forall s, wf_spe s -> settled s -> sourced s -> flat s -> forall f, fair_fun s f -> forall n w, expect (sample ppf s n) (total f n w) = INR n * den s f w.
  Proof.
    induction s as [disc y d supp cond env|y a env|y ws|l IH|l IH] using spe_ind'; intros W St So Fl f Hf n w; try (apply sumfree_mean; auto; exact I).
    pose proof (fair_fun_bnd _ f Hf) as Bf. destruct (sum_probs l W) as (P & T). set (mu := fun i => nth i (map (fun c => den (fst c) f w) l) 0). cbn [Sample.sample]. unfold sample_many. cbn [SampleSpec.expect].
    set (p := normalize _) in *. set (g := child (map (fun c => sample ppf (fst c)) l)).
    assert (Vg : forall i k, valid (g i k)). { apply valid_child. intros h Hh. apply in_map_iff in Hh. destruct Hh as (c & <- & Hc). apply valid_sample. now apply (sum_wf dlaw l W). }
    assert (Lp : List.length p = List.length l) by (unfold p, normalize; now rewrite !map_length).
    assert (Bm : bnd mu).
    { exists (sumR (map Rabs (map (fun c => den (fst c) f w) l))). intros i. unfold mu. generalize (map (fun c => den (fst c) f w) l). clear. intros q. revert i. induction q as [|x q IH]; intros [|i]; cbn; rewrite ?Rabs_R0; try lra.
      - fold (sumR (map Rabs q)). assert (0 <= sumR (map Rabs q)) by (apply sumR_nonneg, Forall_map, Forall_forall; intros; apply Rabs_pos). pose proof (Rabs_pos x). lra.
      - fold (sumR (map Rabs q)). specialize (IH i). pose proof (Rabs_pos x). lra. }
    transitivity (iid (index_law p) n (upto mu n)).
    - apply (iid_as _ (index_law_law p P) _ (index_law_full p P)).
      + apply (expect_bnd drawn dlaw ulaw slaw (u_law _ U) Sh _ _ (fun sel => gbind (gmapM (fun i => g i (count_occ Nat.eq_dec sel i)) (keys_of sel)) (fun blocks => Shuffle (List.length blocks) (fun perm => Ret (List.concat (map (fun j => nth j blocks []) perm)))))); [|now apply total_bnd].
        intros sel. apply valid_bind; [apply valid_mapM; intros; apply Vg|]. intros bs. cbn. auto.
      + now apply upto_bnd.
      + intros sel Hn Hs. rewrite expect_bind. destruct (keys_of_spec sel) as (Nd & Hk). set (cnt := count_occ Nat.eq_dec sel). rewrite Forall_forall in Hs.
        assert (Hi : forall i, In i (keys_of sel) -> (i < List.length l)%nat) by (intros i K; apply Hk, Hs in K; lia).
        transitivity (expect (gmapM (fun i => g i (cnt i)) (keys_of sel)) (block_total (fun m => f (onto m w)) cnt (keys_of sel))).
        * assert (Vk : valid (gmapM (fun i => g i (cnt i)) (keys_of sel))) by (apply valid_mapM; intros; apply Vg). apply (expect_as drawn uniform dlaw ulaw slaw (u_law _ U) (u_in _ U) Sh); auto.
          -- destruct (total_bnd f n w Bf) as (M & HM). exists M. intros [bs|e]; [|exact (HM (Raise e))]. cbn [SampleSpec.expect]. destruct (Sh (List.length bs)) as (Ls & _). apply (law_bound Ls). intros perm. apply HM.
          -- apply block_bnd. now apply (bnd_comp _ _ (fun m => onto m w) f).
          -- intros [bs|e] Hr; [|reflexivity]. cbn [SampleSpec.expect block_total]. apply out_mapM in Hr. destruct (Sh (List.length bs)) as (Ls & Es).
             assert (Hb : Forall2 (fun i b => List.length b = cnt i) (keys_of sel) bs).
             { revert Hr. apply Forall2_in. intros i b Hin Ho. unfold g in Ho. rewrite child_sum in Ho by auto. apply (sample_length drawn uniform ppf dlaw _ (sum_wf dlaw l W _ (nth_In l (SumSPE [], lninf) (Hi i Hin)))) in Ho. exact Ho. }
             rewrite (block_ok _ _ _ _ Hb). transitivity (slaw (List.length bs) (fun _ => sumR (map (fun m => f (onto m w)) (List.concat bs)))); [|apply (law_const Ls)]. apply Es. intros perm Hp. cbn [total].
             pose proof (perm_concat _ _ _ (perm_nth _ bs [] perm Hp)) as Pc. assert (Len : List.length (List.concat (map (fun j => nth j bs []) perm)) = n).
             { rewrite <- (Permutation_length Pc), concat_length. rewrite <- Hn, <- (count_total (keys_of sel) sel Nd (fun x Hx => proj2 (Hk x) Hx)). f_equal. clear - Hb. subst cnt. induction Hb as [|i b ks bs E Hb IHb]; cbn [map]; [reflexivity|]. rewrite E. f_equal. exact IHb. }
             rewrite <- Len at 1. rewrite upto_full. symmetry. now apply sumR_perm_map.
        * rewrite (blocks_mean g f cnt w mu (keys_of sel) Bf Vg).
          -- unfold cnt. rewrite (count_sum mu (keys_of sel) sel Nd (fun x Hx => proj2 (Hk x) Hx)). rewrite <- Hn at 1. now rewrite upto_full.
          -- intros i Hin. specialize (Hi i Hin). unfold g. rewrite child_sum by auto. set (c := nth i l (SumSPE [], lninf)). assert (Hc : In c l) by now apply nth_In. split.
             ++ intros r Hr. apply (sample_total drawn uniform ppf dlaw (fun u K => K) (fst c)) in Hr; auto. { now apply (sum_wf dlaw l W). } { exact (All_In _ _ _ c St Hc). } exact (All_In _ _ _ c So Hc).
             ++ unfold mu. rewrite (nth_map_in _ _ (fun c : spe * lg S => den (fst c) f w) l i 0 (SumSPE [], lninf) Hi). fold c. apply (IH c Hc (sum_wf dlaw l W c Hc) (All_In _ _ _ c St Hc) (All_In _ _ _ c So Hc) (All_In _ _ _ c Fl Hc)). now apply (fair_child l).
    - rewrite iid_upto by (auto; now apply index_law_law). f_equal. unfold p. rewrite index_weights by auto. cbn [SpeSpec.den]. rewrite <- (sum_index _ l (SumSPE [], lninf)). apply sumR_ext. intros i Hi. apply in_seq in Hi. f_equal. unfold mu.
      now rewrite (nth_map_in _ _ (fun c : spe * lg S => den (fst c) f w) l i 0 (SumSPE [], lninf)) by lia.
  Qed.
End Law.
