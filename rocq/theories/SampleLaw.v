(** Proofs about expected values: independent draws, samplers as distributions. *)
From Coq Require Import List Bool String Reals Lra Lia ZArith QArith Qreals Permutation FunctionalExtensionality.
From Verif Require Import Base Num Sets SetSpec SetProofs Poly Trans TransSpec TransFacts Logs Spe SpeSpec SpeFacts SpeRect LeafProofs LeafEvents Sample SampleSpec SampleFacts SampleSim.
Import ListNotations.
Local Open Scope list_scope.
Local Open Scope R_scope.

Lemma law_bind : forall A B (I : (A -> R) -> R) (K : A -> (B -> R) -> R), law I -> (forall a, law (K a)) -> law (fun f => I (fun a => K a f)).
Proof.
  intros A B I K L H. assert (Bk : forall f, bnd f -> bnd (fun a => K a f)).
  { intros f (M & Hf). exists M. intros a. apply (law_bound (H a) f M Hf). }
  split.
  - intros f g Hf Hg. rewrite <- (law_plus L) by auto. apply law_ext. intros a. apply (law_plus (H a)); auto.
  - intros c f Hf. rewrite <- (law_scale L) by auto. apply law_ext. intros a. apply (law_scale (H a)); auto.
  - intros f Hf P. apply (law_pos L); auto. intros a. apply (law_pos (H a)); auto.
  - transitivity (I (fun _ => 1)); [|apply (law_one L)]. apply law_ext. intros a. apply (law_one (H a)).
Qed.
Lemma law_point : forall A (a : A), law (fun f => f a).
Proof. intros A a. split; auto. Qed.

(** ** Independent draws *)
Section Iid.
  Context {A : Type} (I : (A -> R) -> R) (L : law I).
  Lemma iid_law : forall n, law (iid I n).
  Proof.
    induction n as [|n IH]; cbn [iid]; [apply law_point|]. apply (law_bind _ _ I (fun a f => iid I n (fun l => f (a :: l)))); auto.
    intros a. now apply (law_image _ _ (iid I n) (cons a)).
  Qed.
  Lemma iid_as : forall (P : A -> Prop), I (ind P) = 1 -> forall n f g, bnd f -> bnd g -> (forall l, List.length l = n -> Forall P l -> f l = g l) -> iid I n f = iid I n g.
  Proof.
    intros P HP. induction n as [|n IH]; intros f g Hf Hg E; cbn [iid]; [apply E; constructor|].
    assert (Bd : forall f : list A -> R, bnd f -> bnd (fun a => iid I n (fun l => f (a :: l)))).
    { intros h (M & Hh). exists M. intros a. apply (law_bound (iid_law n)). auto. }
    apply (law_as L (fun a => ~ P a)); [now apply (law_full L)|auto|auto|].
    intros a Ha. assert (Pa : P a) by (destruct (dec (P a)); tauto). apply IH.
    - now apply (bnd_comp _ _ (cons a) f).
    - now apply (bnd_comp _ _ (cons a) g).
    - intros l Hl Fl. apply E; [cbn; congruence|now constructor].
  Qed.
  (** a product of functions of the single draws *)
  Lemma pairs_bnd : forall B (fs : list (B -> R)), Forall bnd fs -> bnd (pairs fs).
  Proof.
    intros B fs H. induction H as [|f fs (M & Hf) H (K & IH)].
    - exists 1. intros [|b l]; cbn; rewrite ?Rabs_R1, ?Rabs_R0; lra.
    - exists (Rabs M * Rabs K). intros [|b l]; cbn; [rewrite Rabs_R0; apply Rmult_le_pos; apply Rabs_pos|]. rewrite Rabs_mult. apply Rmult_le_compat; auto using Rabs_pos.
      + eapply Rle_trans; [apply Hf|apply Rle_abs].
      + eapply Rle_trans; [apply IH|apply Rle_abs].
  Qed.
  Lemma iid_pairs : forall fs, Forall bnd fs -> iid I (List.length fs) (pairs fs) = prodR (map I fs).
  Proof.
    intros fs H. induction H as [|f fs Hf H IH]; cbn [iid List.length map prodR fold_right]; [reflexivity|]. fold (prodR (map I fs)). rewrite <- IH.
    rewrite <- (law_scale_r L) by auto. apply law_ext. intros a. cbn [pairs]. rewrite (law_scale (iid_law _) (f a) (pairs fs)); auto. now apply pairs_bnd.
  Qed.
End Iid.
Lemma iid_map : forall A B (I : (A -> R) -> R) (h : A -> B) n f, iid I n (fun l => f (map h l)) = iid (fun g => I (fun a => g (h a))) n f.
Proof.
  intros A B I h. induction n as [|n IH]; intros f; cbn [iid]; [reflexivity|]. apply law_ext. intros a. apply (IH (fun l => f (h a :: l))).
Qed.
Lemma iid_point : forall A (a : A) n f, iid (fun g => g a) n f = f (repeat a n).
Proof. intros A a. induction n as [|n IH]; intros f; cbn [iid repeat]; [reflexivity|]. apply (IH (fun l => f (a :: l))). Qed.

(** ** Choices *)
Definition probs (p : list R) : Prop := Forall (fun x => 0 <= x) p /\ sumR p = 1.
Lemma sum_nth : forall (p : list R), sumR (map (fun i => nth i p 0) (seq 0 (List.length p))) = sumR p.
Proof. intros p. now rewrite nth_seq_id. Qed.
Lemma index_law_law : forall p, probs p -> law (index_law p).
Proof.
  intros p (H & T). unfold index_law. apply (law_mix nat nat (seq 0 (List.length p)) (fun i => nth i p 0) (fun i f => f i)).
  - intros i _. apply law_point.
  - intros i Hi. apply in_seq in Hi. rewrite Forall_forall in H. apply H, nth_In. lia.
  - now rewrite sum_nth.
Qed.
Lemma index_law_full : forall p, probs p -> index_law p (ind (fun i => (i < List.length p)%nat /\ 0 < nth i p 0)) = 1.
Proof.
  intros p (H & T). rewrite <- T, <- sum_nth. unfold index_law. apply sumR_ext. intros i Hi. apply in_seq in Hi. rewrite Forall_forall in H. assert (P : 0 <= nth i p 0) by (apply H, nth_In; lia).
  destruct P as [P|P]; [rewrite ind_true; [ring|split; [lia|auto]]|]. rewrite <- P. ring.
Qed.
Lemma normalize_probs : forall p, Forall (fun x => 0 <= x) p -> 0 < sumR p -> probs (normalize p).
Proof.
  intros p H T. split.
  - apply Forall_map. eapply Forall_impl; [|exact H]. intros x Hx. apply Rmult_le_pos; auto. left. now apply Rinv_0_lt_compat.
  - unfold normalize, Rdiv. rewrite sumR_scale. rewrite map_id. field. lra.
Qed.

Section Expect.
  Context {N : numsys} {S : logsys} {D : distsys N S}.
  Notation spe := (spe D).
  Notation gen := (gen (D:=D)).
  Context (drawn : dist D -> R -> Prop) (uniform : R -> Prop).
  Notation outcome := (outcome drawn uniform).
  Context (dlaw : dist D -> (fval -> R) -> R) (ulaw : (R -> R) -> R) (slaw : nat -> (list nat -> R) -> R).
  Notation expect := (expect dlaw ulaw slaw).
  Notation num_law := (num_law dlaw).
  Context (Lu : law ulaw) (Fu : ulaw (ind uniform) = 1) (Ls : shuffle_law slaw).

  (** requests that have answers *)
  Fixpoint valid {A} (g : gen A) : Prop :=
    match g with
    | Ret _ | Fail _ => True
    | Flip p _ k => probs p /\ forall l, valid (k l)
    | Shuffle _ k => forall l, valid (k l)
    | Rvs d _ k => (law (num_law d) /\ num_law d (ind (drawn d)) = 1) /\ forall l, valid (k l)
    | Unif _ k => forall l, valid (k l)
    end.
  Lemma valid_bind : forall A B (g : gen A) (f : A -> gen B), valid g -> (forall a, valid (f a)) -> valid (gbind g f).
  Proof. intros A B g f. induction g as [a|e|p n k IH|m k IH|d n k IH|n k IH]; cbn; intros V Hf; auto; try (destruct V; split; auto). Qed.
  Lemma valid_mapM : forall A B (f : A -> gen B) l, (forall a, In a l -> valid (f a)) -> valid (gmapM f l).
  Proof.
    intros A B f. induction l as [|a l IH]; intros H; cbn; auto. apply valid_bind; [apply H; now left|]. intros b. apply valid_bind; [apply IH; intros; apply H; now right|]. intros; exact I.
  Qed.
  Lemma expect_law : forall A (g : gen A), valid g -> law (expect g).
  Proof.
    intros A g. induction g as [a|e|p n k IH|m k IH|d n k IH|n k IH]; cbn [SampleSpec.expect valid]; intros V.
    - apply law_point.
    - apply law_point.
    - destruct V as (P & V). apply (law_bind _ _ (iid (index_law p) n) (fun l f => expect (k l) f)); auto. now apply iid_law, index_law_law.
    - apply (law_bind _ _ (slaw m) (fun l f => expect (k l) f)); auto. apply Ls.
    - destruct V as ((P & _) & V). apply (law_bind _ _ (iid (num_law d) n) (fun l f => expect (k l) f)); auto. now apply iid_law.
    - apply (law_bind _ _ (iid ulaw n) (fun l f => expect (k l) f)); auto. now apply iid_law.
  Qed.
  Lemma expect_bnd : forall A B (k : B -> gen A) f, (forall b, valid (k b)) -> bnd f -> bnd (fun b => expect (k b) f).
  Proof. intros A B k f V (M & Hf). exists M. intros b. apply (law_bound (expect_law _ _ (V b))). exact Hf. Qed.
  Lemma expect_as : forall A (g : gen A) f f', valid g -> bnd f -> bnd f' -> (forall r, outcome g r -> f r = f' r) -> expect g f = expect g f'.
  Proof.
    intros A g f f' V Hf Hf'. induction g as [a|e|p n k IH|m k IH|d n k IH|n k IH]; cbn [SampleSpec.expect valid] in *; intros E.
    - apply E. constructor.
    - apply E. constructor.
    - destruct V as (P & V). apply (iid_as _ (index_law_law p P) _ (index_law_full p P)); try (now apply expect_bnd). intros l Hl Fl. apply IH; auto. intros r Hr. apply E. now apply (out_flip drawn uniform p n k l).
    - apply (proj2 (Ls m)). intros l Hl. apply IH; auto. intros r Hr. apply E. now apply (out_shuffle drawn uniform m k l).
    - destruct V as ((P & Q) & V). apply (iid_as _ P _ Q); try (now apply expect_bnd). intros l Hl Fl. apply IH; auto. intros r Hr. apply E. now apply (out_rvs drawn uniform d n k l).
    - apply (iid_as _ Lu _ Fu); try (now apply expect_bnd). intros l Hl Fl. apply IH; auto. intros r Hr. apply E. now apply (out_unif drawn uniform n k l).
  Qed.
  Lemma expect_bind : forall A B (g : gen A) (k : A -> gen B) f, expect (gbind g k) f = expect g (fun r => match r with Ok a => expect (k a) f | Raise e => f (Raise e) end).
  Proof.
    intros A B g k f. induction g as [a|e|p n k' IH|m k' IH|d n k' IH|n k' IH]; cbn [SampleSpec.expect gbind]; auto; apply law_ext; intros l; apply IH.
  Qed.
  Lemma expect_ext : forall A (g : gen A) f f', (forall r, f r = f' r) -> expect g f = expect g f'.
  Proof. intros A g f f' H. f_equal. extensionality r. auto. Qed.
  Lemma expect_lift : forall A (r : res A) f, expect (lift r) f = f r.
  Proof. intros A [a|e] f; reflexivity. Qed.
End Expect.
