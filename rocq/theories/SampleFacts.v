(** Proofs about the possible results of sampling. *)
From Coq Require Import List Bool String Reals Lra Lia ZArith QArith Qreals Permutation FunctionalExtensionality.
From Verif Require Import Base Num Sets SetSpec SetProofs Poly Trans TransSpec TransFacts PolyProofs EvProofs Logs Spe SpeSpec SpeFacts SpeRect LeafProofs Sample SampleSpec.
Import ListNotations.
Local Open Scope list_scope.
Local Open Scope R_scope.

(** ** Lists *)
Lemma inb_nat : forall x l, inb Nat.eqb x l = true <-> In x l.
Proof.
  intros x. induction l as [|y l IH]; cbn; [split; [discriminate|tauto]|]. rewrite orb_true_iff, IH, Nat.eqb_eq. split; intros [H|H]; auto.
Qed.
Lemma dedup_nat : forall l, NoDup (dedup Nat.eqb l) /\ forall x, In x (dedup Nat.eqb l) <-> In x l.
Proof.
  induction l as [|y l (Nd & IH)]; cbn; [split; [constructor|tauto]|]. destruct (inb Nat.eqb y l) eqn:E.
  - apply inb_nat in E. split; auto. intros x. rewrite IH. split; auto. intros [<-|H]; auto.
  - split; [|intros x; cbn; rewrite IH; tauto]. constructor; auto. rewrite IH. intros K. apply inb_nat in K. congruence.
Qed.
Lemma keys_of_spec : forall l, NoDup (keys_of l) /\ forall x, In x (keys_of l) <-> In x l.
Proof.
  intros l. unfold keys_of. destruct (dedup_nat (rev l)) as (Nd & H). split.
  - now apply NoDup_rev.
  - intros x. rewrite <- in_rev, H. symmetry. apply in_rev.
Qed.
Lemma nsum_zero : forall A (f : A -> nat) l, (forall a, In a l -> f a = 0)%nat -> list_sum (map f l) = 0%nat.
Proof. intros A f. induction l as [|a l IH]; intros H; [reflexivity|]. cbn. rewrite (H a) by now left. apply IH. intros; apply H; now right. Qed.
Lemma nsum_indicator : forall x l, NoDup l -> In x l -> list_sum (map (fun i => if Nat.eq_dec x i then 1 else 0)%nat l) = 1%nat.
Proof.
  intros x. induction l as [|y l IH]; intros Nd Hx; [contradiction|]. inversion Nd; subst. cbn. destruct (Nat.eq_dec x y) as [->|Ne].
  - rewrite nsum_zero; [reflexivity|]. intros a Ha. destruct (Nat.eq_dec y a); congruence.
  - destruct Hx as [->|Hx]; [congruence|]. now apply IH.
Qed.
Lemma nsum_plus : forall A (f g : A -> nat) l, list_sum (map (fun a => f a + g a)%nat l) = (list_sum (map f l) + list_sum (map g l))%nat.
Proof. intros A f g. unfold list_sum. induction l as [|a l IH]; [reflexivity|]. cbn. rewrite IH. lia. Qed.
Lemma count_total : forall ks l, NoDup ks -> (forall x, In x l -> In x ks) -> list_sum (map (count_occ Nat.eq_dec l) ks) = List.length l.
Proof.
  intros ks. induction l as [|x l IH]; intros Nd H.
  - apply nsum_zero. reflexivity.
  - cbn [List.length]. rewrite <- IH by (auto; intros; apply H; now right).
    assert (E : map (count_occ Nat.eq_dec (x :: l)) ks = map (fun i => (if Nat.eq_dec x i then 1 else 0) + count_occ Nat.eq_dec l i)%nat ks).
    { apply map_ext. intros i. cbn [count_occ]. destruct (Nat.eq_dec x i); lia. }
    rewrite E, nsum_plus, nsum_indicator by (auto; apply H; now left). reflexivity.
Qed.
Lemma nth_seq_id : forall A (l : list A) d, map (fun j => nth j l d) (seq 0 (List.length l)) = l.
Proof.
  intros A l d. apply (nth_ext _ _ d d); [now rewrite map_length, seq_length|]. intros n Hn. rewrite map_length, seq_length in Hn.
  rewrite (nth_indep _ d (nth 0 l d)) by now rewrite map_length, seq_length. rewrite (map_nth (fun j => nth j l d) _ 0%nat). now rewrite seq_nth.
Qed.
Lemma perm_nth : forall A (l : list A) d p, Permutation (seq 0 (List.length l)) p -> Permutation l (map (fun j => nth j l d) p).
Proof. intros A l d p H. rewrite <- (nth_seq_id A l d) at 1. now apply Permutation_map. Qed.
Lemma perm_concat : forall A (l m : list (list A)), Permutation l m -> Permutation (List.concat l) (List.concat m).
Proof.
  intros A l m H. induction H; cbn; auto.
  - now apply Permutation_app_head.
  - rewrite !app_assoc. apply Permutation_app_tail, Permutation_app_comm.
  - eauto using Permutation_trans.
Qed.
Lemma concat_length : forall A (l : list (list A)), List.length (List.concat l) = list_sum (map (@List.length A) l).
Proof. intros A. unfold list_sum. induction l as [|a l IH]; [reflexivity|]. cbn. now rewrite app_length, IH. Qed.

(** ** Dictionaries *)
Lemma sget_app : forall a b x, sget (a ++ b) x = match sget a x with Some v => Some v | None => sget b x end.
Proof. induction a as [|(y, v) a IH]; intros b x; [reflexivity|]. cbn. destruct (String.eqb x y); auto. Qed.
Lemma onto_app : forall a b w, onto (a ++ b) w = onto a (onto b w).
Proof. intros a b w. extensionality x. unfold onto. rewrite sget_app. now destruct (sget a x). Qed.
Lemma sget_in : forall m x, sget m x <> None <-> In x (map fst m).
Proof.
  induction m as [|(y, v) m IH]; intros x; cbn; [tauto|]. destruct (String.eqb_spec x y) as [->|Ne]; [split; [now left|discriminate]|]. rewrite IH. split; auto. intros [E|H]; auto. congruence.
Qed.
Lemma sget_pair : forall m x v, sget m x = Some v -> In (x, v) m.
Proof. induction m as [|(y, u) m IH]; intros x v H; [discriminate|]. cbn in H. destruct (String.eqb_spec x y) as [->|]; [injection H as ->; now left|right; auto]. Qed.

Section Outcomes.
  Context {N : numsys} {S : logsys} {D : distsys N S}.
  Notation spe := (spe D).
  Notation gen := (gen (D:=D)).
  Context (drawn : dist D -> R -> Prop) (uniform : R -> Prop).
  Notation outcome := (outcome drawn uniform).

  (** ** Results of sequences of requests *)
  Lemma out_bind : forall A B (g : gen A) (f : A -> gen B) r, outcome (gbind g f) r ->
    (exists a, outcome g (Ok a) /\ outcome (f a) r) \/ (exists e, outcome g (Raise e) /\ r = Raise e).
  Proof.
    intros A B g f r. induction g as [a|e|p n k IH|m k IH|d n k IH|n k IH]; cbn [gbind]; intros H.
    - left. exists a. split; [constructor|exact H].
    - right. inversion H; subst. exists e. split; [constructor|reflexivity].
    - inversion H; subst; clear H. match goal with K : outcome _ _ |- _ => apply IH in K; destruct K as [(a & Ka & Kb)|(e & Ka & Kb)]; [left; exists a|right; exists e]; (split; [econstructor; eauto|auto]) end.
    - inversion H; subst; clear H. match goal with K : outcome _ _ |- _ => apply IH in K; destruct K as [(a & Ka & Kb)|(e & Ka & Kb)]; [left; exists a|right; exists e]; (split; [econstructor; eauto|auto]) end.
    - inversion H; subst; clear H. match goal with K : outcome _ _ |- _ => apply IH in K; destruct K as [(a & Ka & Kb)|(e & Ka & Kb)]; [left; exists a|right; exists e]; (split; [econstructor; eauto|auto]) end.
    - inversion H; subst; clear H. match goal with K : outcome _ _ |- _ => apply IH in K; destruct K as [(a & Ka & Kb)|(e & Ka & Kb)]; [left; exists a|right; exists e]; (split; [econstructor; eauto|auto]) end.
  Qed.
  Lemma out_bind_ok : forall A B (g : gen A) (f : A -> gen B) b, outcome (gbind g f) (Ok b) -> exists a, outcome g (Ok a) /\ outcome (f a) (Ok b).
  Proof. intros A B g f b H. apply out_bind in H. destruct H as [H|(e & _ & H)]; [exact H|discriminate]. Qed.
  Lemma out_ret_inv : forall A (a : A) r, outcome (Ret a) r -> r = Ok a.
  Proof. intros A a r H. now inversion H. Qed.
  Lemma out_lift : forall A (x : res A) r, outcome (lift x) r -> r = x.
  Proof. intros A [a|e] r H; now inversion H. Qed.
  Lemma out_mapM : forall A B (f : A -> gen B) l bs, outcome (gmapM f l) (Ok bs) -> Forall2 (fun a b => outcome (f a) (Ok b)) l bs.
  Proof.
    intros A B f. induction l as [|a l IH]; intros bs H; cbn in H.
    - apply out_ret_inv in H. injection H as ->. constructor.
    - apply out_bind_ok in H. destruct H as (b & Hb & H). apply out_bind_ok in H. destruct H as (bs' & Hbs & H). apply out_ret_inv in H. injection H as ->. constructor; auto.
  Qed.
  Lemma out_mapM_all : forall A B (f : A -> gen B) l r, (forall a r, In a l -> outcome (f a) r -> exists b, r = Ok b) -> outcome (gmapM f l) r -> exists bs, r = Ok bs.
  Proof.
    intros A B f. induction l as [|a l IH]; intros r Hf H; cbn in H.
    - apply out_ret_inv in H. subst. eauto.
    - apply out_bind in H. destruct H as [(b & Hb & H)|(e & He & ->)].
      + apply out_bind in H. destruct H as [(bs & Hbs & H)|(e & He & ->)].
        * apply out_ret_inv in H. subst. eauto.
        * apply IH in He; [exact He|]. intros; eapply Hf; eauto. now right.
      + exfalso. apply Hf in He; [|now left]. destruct He. discriminate.
  Qed.

  Lemma normalize_pos : forall p i, (forall x, In x p -> 0 <= x) -> 0 < nth i (normalize p) 0 -> 0 < nth i p 0.
  Proof.
    intros p i Hp H. destruct (Nat.lt_ge_cases i (List.length p)) as [Hi|Hi].
    - unfold normalize in H. rewrite (nth_indep _ 0 (0 / sumR p)) in H by now rewrite map_length. rewrite (map_nth (fun x => x / sumR p)) in H.
      assert (0 <= nth i p 0) by (apply Hp, nth_In; auto). destruct H0 as [H0|H0]; auto. rewrite <- H0 in H. unfold Rdiv in H. rewrite Rmult_0_l in H. lra.
    - rewrite nth_overflow in H by (unfold normalize; rewrite map_length; auto). lra.
  Qed.
  Lemma normalize_length : forall p, List.length (normalize p) = List.length p.
  Proof. intros p. apply map_length. Qed.

  (** ** sample_many *)
  Lemma many_ok : forall A (ws : list (lg S)) n (f : nat -> nat -> gen (list A)) l, outcome (sample_many ws n f) (Ok l) ->
    exists sel blocks, List.length sel = n /\ Forall (fun i => (i < List.length ws)%nat /\ 0 < toP (nth i ws lninf)) sel /\
      Forall2 (fun i b => outcome (f i (count_occ Nat.eq_dec sel i)) (Ok b)) (keys_of sel) blocks /\ Permutation (List.concat blocks) l.
  Proof.
    intros A ws n f l H. unfold sample_many in H. inversion H as [| |p n' k sel r Hl Hs Ho| | |]; subst. exists sel. apply out_bind_ok in Ho. destruct Ho as (blocks & Hb & Ho). exists blocks.
    apply out_mapM in Hb. inversion Ho as [| | |m k perm r Hp Hr| |]; subst. apply out_ret_inv in Hr. injection Hr as ->. split; [reflexivity|]. split; [|split; [exact Hb|]].
    - eapply Forall_impl; [|exact Hs]. intros i (Hi & Hw). rewrite normalize_length, map_length in Hi. split; auto. apply normalize_pos in Hw.
      + rewrite (nth_indep _ 0 (toP (lninf : lg S) / sumR (map toP ws))) in Hw by now rewrite map_length. rewrite (map_nth (fun w => toP w / sumR (map toP ws))) in Hw.
        pose proof (toP_nonneg S (nth i ws lninf)) as [P|P]; auto. rewrite <- P in Hw. unfold Rdiv in Hw. rewrite Rmult_0_l in Hw. lra.
      + intros x Hx. apply in_map_iff in Hx. destruct Hx as (w & <- & Hw'). assert (T : 0 <= sumR (map toP ws)).
        { clear. induction ws as [|w ws IH]; cbn; [lra|]. pose proof (toP_nonneg S w). unfold sumR in IH. lra. }
        pose proof (toP_nonneg S w) as P. destruct T as [T|T]; [apply Rmult_le_pos; auto; left; now apply Rinv_0_lt_compat|]. rewrite <- T. unfold Rdiv. rewrite Rinv_0. lra.
    - apply perm_concat, perm_nth. exact Hp.
  Qed.
  Lemma many_count : forall A (ws : list (lg S)) n (f : nat -> nat -> gen (list A)) l,
    (forall i k b, outcome (f i k) (Ok b) -> List.length b = k) -> outcome (sample_many ws n f) (Ok l) -> List.length l = n.
  Proof.
    intros A ws n f l Hf H. apply many_ok in H. destruct H as (sel & blocks & Hs & _ & Hb & P). rewrite <- (Permutation_length P), concat_length.
    destruct (keys_of_spec sel) as (Nd & Hk). rewrite <- Hs, <- (count_total (keys_of sel) sel); [|auto|intros x Hx; now apply Hk]. f_equal.
    clear -Hb Hf. induction Hb; [reflexivity|]. cbn. rewrite IHHb. f_equal. now apply Hf in H.
  Qed.
  Lemma many_all : forall A (ws : list (lg S)) n (f : nat -> nat -> gen (list A)) l (P : A -> Prop),
    (forall i k b, (i < List.length ws)%nat -> 0 < toP (nth i ws lninf) -> outcome (f i k) (Ok b) -> Forall P b) -> outcome (sample_many ws n f) (Ok l) -> Forall P l.
  Proof.
    intros A ws n f l P Hf H. apply many_ok in H. destruct H as (sel & blocks & Hs & Hw & Hb & Pm). eapply Permutation_Forall; [exact Pm|]. destruct (keys_of_spec sel) as (_ & Hk).
    assert (Hin : forall x, In x (keys_of sel) -> In x sel) by (intros; now apply Hk). rewrite Forall_forall in Hw. clear Hk Pm Hs. induction Hb; [constructor|]. cbn. apply Forall_app. split.
    - destruct (Hw x) as (W1 & W2); [apply Hin; now left|]. eapply Hf; eauto.
    - apply IHHb. intros; apply Hin; now right.
  Qed.
  Lemma many_total : forall A (ws : list (lg S)) n (f : nat -> nat -> gen (list A)) r,
    (forall i k r, (i < List.length ws)%nat -> outcome (f i k) r -> exists b, r = Ok b) -> outcome (sample_many ws n f) r -> exists l, r = Ok l.
  Proof.
    intros A ws n f r Hf H. unfold sample_many in H. inversion H as [| |p n' k sel r' Hl Hs Ho| | |]; subst. apply out_bind in Ho. destruct Ho as [(blocks & Hb & Ho)|(e & He & ->)].
    - inversion Ho as [| | |m k perm r' Hp Hr| |]; subst. apply out_ret_inv in Hr. eauto.
    - apply out_mapM_all in He; [destruct He; discriminate|]. intros i r Hi. apply Hf. rewrite Forall_forall in Hs. apply (proj1 (proj2 (keys_of_spec sel) i)) in Hi. apply Hs in Hi. destruct Hi as (Hi & _). now rewrite normalize_length, map_length in Hi.
  Qed.

  (** ** Counting *)
  Context (ppf : dist D -> R -> R).
  Notation sample := (sample ppf).
  Notation sample_subset := (sample_subset ppf).
  Lemma draws_length : forall s n l, outcome (draws ppf s n) (Ok l) -> List.length l = n.
  Proof.
    intros s n l H. destruct s as [disc x d supp [|] env|x v env|x ws|l0|l0]; cbn [draws] in H; inversion H; subst; repeat match goal with K : outcome (Ret _) _ |- _ => apply out_ret_inv in K; injection K as -> end; now rewrite ?map_length, ?repeat_length.
  Qed.
  Lemma mapM_length : forall A B (f : A -> res B) l r, mapM f l = Ok r -> List.length r = List.length l.
  Proof. intros A B f l r H. apply mapM_Forall2 in H. induction H; cbn; auto. Qed.
  Lemma leaf_subset_length : forall s b xs n l, outcome (leaf_subset ppf s b xs n) (Ok l) -> List.length l = n.
  Proof.
    intros s b xs n l H. unfold leaf_subset in H. destruct (forallb _ xs); [|inversion H]. apply out_bind_ok in H. destruct H as (vs & Hv & H). apply draws_length in Hv. destruct (just b xs (leaf_sym s)).
    - apply out_ret_inv in H. injection H as ->. now rewrite map_length.
    - apply out_lift in H. symmetry in H. apply mapM_length in H. congruence.
  Qed.
  Lemma zip2_length : forall a b n, List.length a = n -> List.length b = n -> List.length (zip2 a b) = n.
  Proof. induction a as [|x a IH]; intros [|y b] n Ha Hb; cbn in *; try lia. destruct n; [discriminate|]. f_equal. apply IH; lia. Qed.
  Lemma merge_length : forall l n, l <> [] -> Forall (fun a => List.length a = n) l -> List.length (merge_samples l) = n.
  Proof.
    induction l as [|a l IH]; intros n Ne H; [tauto|]. inversion H; subst. destruct l as [|b l]; [reflexivity|]. change (merge_samples (a :: b :: l)) with (zip2 a (merge_samples (b :: l))). apply zip2_length; auto. apply IH; [discriminate|auto].
  Qed.
  Lemma child_length : forall A (l : list (nat -> gen (list A))) i k b, (forall f, In f l -> forall k b, outcome (f k) (Ok b) -> List.length b = k) -> outcome (child l i k) (Ok b) -> List.length b = k.
  Proof.
    intros A l i k b Hl H. unfold child in H. destruct (nth_in_or_default i l (fun _ => Fail IndexError)) as [Hi|E]; [eapply Hl; eauto|]. rewrite E in H. inversion H.
  Qed.
  Lemma Forall2_right : forall A B (P : A -> B -> Prop) (Q : B -> Prop) l m, Forall2 P l m -> (forall a b, In a l -> P a b -> Q b) -> Forall Q m.
  Proof. intros A B P Q l m H K. induction H; constructor. { apply (K x); auto. now left. } apply IHForall2. intros; eapply K; eauto. now right. Qed.
  Context (dlaw : dist D -> (fval -> R) -> R).
  Notation wf_spe := (wf_spe dlaw).
  Lemma sample_length : forall s, wf_spe s -> forall n l, outcome (sample s n) (Ok l) -> List.length l = n.
  Proof.
    induction s using spe_ind'; intros W n l0 Ho; try exact (leaf_subset_length _ _ _ _ _ Ho).
    - cbn [Sample.sample] in Ho. eapply many_count; [|exact Ho]. intros i k b. apply child_length. intros f Hf. apply in_map_iff in Hf. destruct Hf as (c & <- & Hc). intros k' b'. apply H; auto. now apply (sum_wf dlaw l).
    - cbn [Sample.sample] in Ho. apply out_bind_ok in Ho. destruct Ho as (ls & Hls & Ho). apply out_ret_inv in Ho. injection Ho as ->. apply out_mapM in Hls. apply merge_length.
      + destruct W as (Ne & _). destruct l; [tauto|]. inversion Hls; discriminate.
      + eapply Forall2_right; [exact Hls|]. cbn. intros f b Hf. apply in_map_iff in Hf. destruct Hf as (c & <- & Hc). apply H; auto. now apply (prod_wf dlaw l).
  Qed.
  (** the subset must not be empty for a product *)
  Lemma owners_ne : forall (l : list spe) xs is_, xs <> [] -> owners l xs = Ok is_ -> keys_of is_ <> [].
  Proof.
    intros l xs is_ Ne H. destruct xs as [|x xs]; [tauto|]. cbn in H. destruct (owner l x) as [i|]; [|discriminate]. inv_bind H. injection H as <-. intros K. pose proof (proj2 (proj2 (keys_of_spec (i :: r)) i) (or_introl eq_refl)) as Hi. rewrite K in Hi. contradiction.
  Qed.
  Lemma subset_length : forall s, forall b xs n l, xs <> [] -> outcome (sample_subset s b xs n) (Ok l) -> List.length l = n.
  Proof.
    induction s using spe_ind'; intros b xs n l0 Ne Ho; try exact (leaf_subset_length _ _ _ _ _ Ho).
    - cbn [Sample.sample_subset] in Ho. eapply many_count; [|exact Ho]. intros i k b0. apply child_length. intros f Hf. apply in_map_iff in Hf. destruct Hf as (c & <- & Hc). intros k' b'. apply H; auto.
    - cbn [Sample.sample_subset] in Ho. apply out_bind_ok in Ho. destruct Ho as (is_ & Hi & Ho). apply out_lift in Hi. symmetry in Hi. apply out_bind_ok in Ho. destruct Ho as (ls & Hls & Ho). apply out_ret_inv in Ho. injection Ho as ->. apply out_mapM in Hls.
      assert (Nk := owners_ne l xs is_ Ne Hi). apply merge_length.
      + destruct (keys_of is_); [tauto|]. inversion Hls; discriminate.
      + eapply Forall2_right; [exact Hls|]. cbn. intros i a Hin Ha. destruct (nth_in_or_default i (map (fun c => sample_subset c) l) (fun _ _ _ => Fail IndexError)) as [K|E].
        * apply in_map_iff in K. destruct K as (c & E & Hc). rewrite <- E in Ha. apply H in Ha; auto. intros Z.
          assert (Hx : exists x, In x xs /\ owner l x = Some i).
          { apply (proj1 (proj2 (keys_of_spec is_) i)) in Hin. clear -Hi Hin. revert is_ Hi Hin. induction xs as [|x xs IH]; intros is_ Hi Hin; cbn in Hi; [injection Hi as <-; contradiction|]. destruct (owner l x) as [j|] eqn:E; [|discriminate]. inv_bind Hi. injection Hi as <-. destruct Hin as [->|Hin]; [exists x; split; auto; now left|]. destruct (IH r E0 Hin) as (y & Hy & Ey). exists y. split; auto. now right. }
          destruct Hx as (x & Hx & Ex). assert (In x (mine l xs i)) by (apply filter_In; split; auto; rewrite Ex; apply Nat.eqb_refl). rewrite Z in H0. contradiction.
        * rewrite E in Ha. inversion Ha.
  Qed.
End Outcomes.
