(** Theorems about sampling (C41). *)
From Coq Require Import List Bool String Reals Lra Lia ZArith QArith Qreals Permutation.
From Verif Require Import Base Num Sets SetSpec SetProofs Poly Trans TransSpec TransFacts Logs Spe SpeSpec SpeFacts SpeRect LeafProofs LeafEvents Sample SampleSpec SampleFacts SampleSim SampleLaw SampleInv SampleExp.
Import ListNotations.
Local Open Scope list_scope.
Local Open Scope R_scope.

Section Prop41.
  Context {N : numsys} {S : logsys} {D : distsys N S}.
  Notation spe := (spe D).
  Context (dlaw : dist D -> (fval -> R) -> R) (ppf : dist D -> R -> R).

  (** ** Every possible result *)
  Section Outcomes.
    Context (drawn : dist D -> R -> Prop) (uniform : R -> Prop).
    Notation outcome := (outcome drawn uniform).
    Notation sourced := (sourced drawn dlaw ppf).

    (** sample(N) returns N samples *)
    Theorem C41_count : forall s n l, wf_spe dlaw s -> outcome (sample ppf s n) (Ok l) -> List.length l = n.
    Proof. intros s n l W. exact (sample_length drawn uniform ppf dlaw s W n l). Qed.
    (** each has exactly the variables of the expression as keys, and its values are an assignment in the support *)
    Theorem C41_support : forall s n l m, (forall u, uniform u -> 0 < u < 1) -> wf_spe dlaw s -> settled s -> sourced s -> outcome (sample ppf s n) (Ok l) -> In m l ->
      complete m (vars s) /\ only_keys m (vars s) /\ forall w, possible s (onto m w).
    Proof.
      intros s n l m Hu W St So Ho Hm. pose proof (sample_fits drawn uniform ppf dlaw Hu s W St So n l Ho) as F. rewrite Forall_forall in F. destruct (F m Hm) as (w' & P & T).
      destruct (tells_complete m (vars s) w' T) as (C & K). split; auto. split; auto. intros w. apply (possible_agree dlaw s w' (onto m w) W); auto. intros x Hx. symmetry. now apply (tells_onto m (vars s)).
    Qed.
    (** sampling does not fail *)
    Theorem C41_no_failure : forall s n r, (forall u, uniform u -> 0 < u < 1) -> wf_spe dlaw s -> settled s -> sourced s -> outcome (sample ppf s n) r -> exists l, r = Ok l.
    Proof. intros s n r Hu W St So. exact (sample_total drawn uniform ppf dlaw Hu s W St So n r). Qed.

    (** the same for sample_subset(symbols, N), with a list (isset = false) or a set of symbols *)
    Theorem C41_subset_count : forall s isset xs n l, xs <> [] -> outcome (sample_subset ppf s isset xs n) (Ok l) -> List.length l = n.
    Proof. intros s b xs n l H. apply (subset_length drawn uniform ppf s b xs n l H). Qed.
    Theorem C41_subset_support : forall s isset xs n l m, (forall u, uniform u -> 0 < u < 1) -> wf_spe dlaw s -> settled s -> sourced s -> outcome (sample_subset ppf s isset xs n) (Ok l) -> In m l ->
      only_keys m (fun x => In x xs) /\ exists w, possible s w /\ forall x, In x xs -> sget m x = Some (sv_of (w x)).
    Proof.
      intros s b xs n l m Hu W St So Ho Hm. pose proof (subset_fits drawn uniform ppf dlaw Hu s W St So b xs n l Ho) as F. rewrite Forall_forall in F. destruct (F m Hm) as (w' & P & T & K).
      split; auto. exists w'. split; auto. intros x Hx. destruct (T x Hx) as (v & E & Ev). rewrite E. f_equal. now apply fval_sv.
    Qed.
    Theorem C41_subset_no_failure : forall s isset xs n r, (forall u, uniform u -> 0 < u < 1) -> wf_spe dlaw s -> settled s -> sourced s -> (forall x, In x xs -> vars s x) ->
      outcome (sample_subset ppf s isset xs n) r -> exists l, r = Ok l.
    Proof. intros s b xs n r Hu W St So. exact (subset_total drawn uniform ppf dlaw Hu s W St So b xs n r). Qed.

    (** sample_func(f, N) returns values of f at assignments in the support *)
    Theorem C41_func_count : forall s A args (f : list sv -> A) n l, wf_spe dlaw s -> args <> [] -> outcome (sample_func ppf s args f n) (Ok l) -> List.length l = n.
    Proof. intros s A args f n l W. exact (sample_func_length drawn uniform ppf dlaw s W A args f n l). Qed.
    Theorem C41_func_support : forall s A args (f : list sv -> A) n l a, (forall u, uniform u -> 0 < u < 1) -> wf_spe dlaw s -> settled s -> sourced s -> outcome (sample_func ppf s args f n) (Ok l) -> In a l ->
      exists w, possible s w /\ a = f (map (fun x => sv_of (w x)) args).
    Proof.
      intros s A args f n l a Hu W St So Ho Ha. pose proof (sample_func_fits drawn uniform ppf dlaw Hu s W St So A args f n l Ho) as F. rewrite Forall_forall in F. exact (F a Ha).
    Qed.
    Theorem C41_func_no_failure : forall s A args (f : list sv -> A) n r, (forall u, uniform u -> 0 < u < 1) -> wf_spe dlaw s -> settled s -> sourced s -> (forall x, In x args -> vars s x) ->
      outcome (sample_func ppf s args f n) r -> exists l, r = Ok l.
    Proof. intros s A args f n r Hu W St So. exact (sample_func_total drawn uniform ppf dlaw Hu s W St So A args f n r). Qed.
  End Outcomes.

  (** there are such results *)
  Theorem C41_possible : forall drawn s n, (forall d, exists x, drawn d x) -> (forall disc d, dist_ok dlaw disc d -> num_law dlaw d (ind (drawn d)) = 1) -> wf_spe dlaw s -> settled s -> sourced drawn dlaw ppf s ->
    exists l, outcome drawn (fun u => 0 < u < 1) (sample ppf s n) (Ok l).
  Proof.
    intros drawn s n Hd Fd W St So. destruct (valid_outcome dlaw drawn _ (sample ppf s n)) as (r & Hr); auto; [now apply valid_sample|].
    destruct (C41_no_failure drawn _ s n r (fun u H => H) W St So Hr) as (l & ->). eauto.
  Qed.

  Theorem C41_subset_possible : forall drawn s isset xs n, (forall d, exists x, drawn d x) -> (forall disc d, dist_ok dlaw disc d -> num_law dlaw d (ind (drawn d)) = 1) -> wf_spe dlaw s -> settled s -> sourced drawn dlaw ppf s ->
    (forall x, In x xs -> vars s x) -> exists l, outcome drawn (fun u => 0 < u < 1) (sample_subset ppf s isset xs n) (Ok l).
  Proof.
    intros drawn s b xs n Hd Fd W St So V. destruct (valid_outcome dlaw drawn _ (sample_subset ppf s b xs n)) as (r & Hr); auto; [now apply valid_subset|].
    destruct (C41_subset_no_failure drawn _ s b xs n r (fun u H => H) W St So V Hr) as (l & ->). eauto.
  Qed.
  Theorem C41_func_possible : forall drawn s A args (f : list sv -> A) n, (forall d, exists x, drawn d x) -> (forall disc d, dist_ok dlaw disc d -> num_law dlaw d (ind (drawn d)) = 1) -> wf_spe dlaw s -> settled s -> sourced drawn dlaw ppf s ->
    (forall x, In x args -> vars s x) -> exists l, outcome drawn (fun u => 0 < u < 1) (sample_func ppf s args f n) (Ok l).
  Proof.
    intros drawn s A args f n Hd Fd W St So V. destruct (valid_outcome dlaw drawn _ (sample_func ppf s args f n)) as (r & Hr); auto; [now apply valid_func|].
    destruct (C41_func_no_failure drawn _ s A args f n r (fun u H => H) W St So V Hr) as (l & ->). eauto.
  Qed.

  (** ** Expected values *)
  Section Means.
    Context (ulaw : (R -> R) -> R) (slaw : nat -> (list nat -> R) -> R) (U : uniform_law ulaw) (Sh : shuffle_law slaw).
    Notation expect := (expect dlaw ulaw slaw).
    (** the numbers that all unconditioned leaves with the distribution have in their support *)
    Fixpoint usual (s : spe) (d : dist D) (x : R) : Prop :=
      match s with
      | RealLeaf _ _ d' supp cond _ => cond = false -> d = d' -> in_iv supp (FNum x)
      | AtomicLeaf _ _ _ | NominalLeaf _ _ => True
      | SumSPE l => All (fun c => usual (fst c) d x) l
      | ProductSPE l => All (fun c => usual c d x) l
      end.
    Lemma usual_full : forall s, wf_spe dlaw s -> forall disc d, dist_ok dlaw disc d -> num_law dlaw d (ind (usual s d)) = 1.
    Proof.
      assert (Al : forall (A : Type) (P : A -> R -> Prop) (I : (R -> R) -> R) l, law I -> (forall a, In a l -> I (ind (P a)) = 1) -> I (ind (fun x => All (fun a => P a x) l)) = 1).
      { intros A P I l L. induction l as [|a l IH]; intros H.
        - transitivity (I (fun _ => 1)); [apply law_ext; intros; now apply ind_true|apply (law_one L)].
        - transitivity (I (ind (P a))); [|apply H; now left]. apply (law_as L (fun x => ~ All (fun a => P a x) l)); try apply bnd_ind.
          + apply (law_full L). apply IH. intros; apply H; now right.
          + intros x Hx. apply ind_eq. assert (K : All (fun a => P a x) l) by (destruct (dec (All (fun a => P a x) l)); tauto). cbn. tauto. }
      induction s as [disc y d supp cond env|y a env|y ws|l IH|l IH] using spe_ind'; intros W disc' d' Wo; pose proof (num_law_law dlaw disc' d' Wo) as L; cbn [usual].
      - destruct (dec (cond = false /\ d' = d)) as [(-> & ->)|Ne].
        + destruct W as (_ & _ & _ & Wp & _). rewrite <- Wp, <- (num_law_eq dlaw disc' d (ind (in_iv supp)) Wo (bnd_ind _ _)). apply law_ext. intros x. apply ind_eq. tauto.
        + transitivity (num_law dlaw d' (fun _ => 1)); [apply law_ext; intros x; apply ind_true; intros; tauto|apply (law_one L)].
      - transitivity (num_law dlaw d' (fun _ => 1)); [apply law_ext; intros x; now apply ind_true|apply (law_one L)].
      - transitivity (num_law dlaw d' (fun _ => 1)); [apply law_ext; intros x; now apply ind_true|apply (law_one L)].
      - apply (Al _ (fun c x => usual (fst c) d' x)); auto. intros c Hc. apply (IH c Hc (sum_wf dlaw l W c Hc) disc' d' Wo).
      - apply (Al _ (fun c x => usual c d' x)); auto. intros c Hc. apply (IH c Hc (prod_wf dlaw l W c Hc) disc' d' Wo).
    Qed.
    Lemma usual_sourced : forall s (drawn : dist D -> R -> Prop), (forall d x, drawn d x -> usual s d x) -> inverted dlaw ppf s -> sourced drawn dlaw ppf s.
    Proof.
      intros s drawn. induction s as [disc y d supp cond env|y a env|y ws|l IH|l IH] using spe_ind'; cbn; auto.
      - intros H Hi. destruct cond; auto. intros x Hx. exact (H d x Hx eq_refl eq_refl).
      - intros H Hi. apply All_intro. intros c Hc. apply (IH c Hc); [|exact (All_In _ _ _ c Hi Hc)]. intros d x Hx. exact (All_In _ _ _ c (H d x Hx) Hc).
      - intros H Hi. apply All_intro. intros c Hc. apply (IH c Hc); [|exact (All_In _ _ _ c Hi Hc)]. intros d x Hx. exact (All_In _ _ _ c (H d x Hx) Hc).
    Qed.

    (** a single sample has the distribution of the expression *)
    Theorem C41_one : forall s f w, wf_spe dlaw s -> settled s -> inverted dlaw ppf s -> fair_fun s f -> expect (sample ppf s 1) (together [f] w) = den dlaw s f w.
    Proof.
      intros s f w W St Hi Hf. transitivity (prodR (map (fun L => den dlaw s (rect L) w) []) * prodR (map (fun f => den dlaw s f w) [f])); [|cbn; ring].
      apply (fair_dist dlaw ulaw slaw ppf U Sh (usual s) (usual_full s W) s w W St (usual_sourced s _ (fun d x H => H) Hi) [f] ltac:(constructor; auto) [] (Forall_nil _)). now right.
    Qed.
    (** without mixtures, the samples are independent draws from the distribution of the expression *)
    Theorem C41_independent_partial : forall s fs w, wf_spe dlaw s -> settled s -> inverted dlaw ppf s -> sumfree s -> Forall (fair_fun s) fs ->
      expect (sample ppf s (List.length fs)) (together fs w) = prodR (map (fun f => den dlaw s f w) fs).
    Proof.
      intros s fs w W St Hi Hs Hf. transitivity (prodR (map (fun L => den dlaw s (rect L) w) []) * prodR (map (fun f => den dlaw s f w) fs)); [|cbn; ring].
      apply (fair_dist dlaw ulaw slaw ppf U Sh (usual s) (usual_full s W) s w W St (usual_sourced s _ (fun d x H => H) Hi) fs Hf [] (Forall_nil _)). now left.
    Qed.
    (** with mixtures at the top only, averages over the samples have the right mean *)
    Theorem C41_mean_partial : forall s f n w, wf_spe dlaw s -> settled s -> inverted dlaw ppf s -> flat s -> fair_fun s f ->
      expect (sample ppf s n) (total f n w) = INR n * den dlaw s f w.
    Proof.
      intros s f n w W St Hi Fl Hf. apply (flat_mean dlaw ulaw slaw ppf U Sh (usual s) (usual_full s W) s W St (usual_sourced s _ (fun d x H => H) Hi) Fl f Hf).
    Qed.
  End Means.
End Prop41.
