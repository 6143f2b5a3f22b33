(** What transform keeps: the shape of an expression, the kinds and supports of its leaves. *)
From Coq Require Import List Bool String Reals Lra Lia ZArith QArith PeanoNat.
From Verif Require Import Base Num Sets SetSpec SetIv SetProofs SetOr SetOps SetAlg SetBuilt
  Poly Trans TransSpec TransFacts PolyProofs InvProofs InvMain EvProofs ArithProofs
  Dnf DnfSpec DnfProofs DnfUnion Logs Spe SpeSpec SpeFacts SpeRect LeafProofs LeafEvents LeafCond SpeCons LeafGiven SpeEq SimplifyProofs CondTypes SpeOps OpsProofs PropSpe TransformProofs
  MemoProofs TotalSpec CondShape.
Import ListNotations.
Local Open Scope R_scope.

Section Shape.
  Context {N : numsys} {S : logsys} {D : distsys N S}.
  Context (nominal derived : string -> bool) (cuts : string -> R -> Prop).
  Notation spe := (spe D).
  Notation tr := (tr N).

  Lemma sum_keeps : forall (Q : spe -> Prop), (forall l, Q (SumSPE l) <-> All (fun c => Q (fst c)) l) -> forall cs ws t, Forall Q cs -> mk_Sum cs ws = Ok t -> Q t.
  Proof.
    intros Q HQ cs ws t F H. unfold mk_Sum in H. inv_bind H. inv_bind H. inv_bind H. inv_bind H. destruct r2; [|discriminate]. injection H as <-. apply HQ. apply all_forall. intros d Hd.
    apply in_concat in Hd. destruct Hd as (m & Hm & Hd). apply in_map_iff in Hm. destruct Hm as ((c, w) & <- & Hc). apply in_combine_l in Hc. rewrite Forall_forall in F. specialize (F c Hc). cbn [fst snd] in Hd.
    destruct c as [| | |l|]; try (destruct Hd as [<-|[]]; exact F). cbn [sum_terms] in Hd. apply in_map_iff in Hd. destruct Hd as (u & <- & Hu). cbn [fst]. apply HQ in F. exact (SpeFacts.All_In _ _ _ _ F Hu).
  Qed.
  Lemma prod_keeps : forall (Q : spe -> Prop), (forall l, Q (ProductSPE l) <-> All Q l) -> forall cs t, Forall Q cs -> mk_Product cs = Ok t -> Q t.
  Proof.
    intros Q HQ cs t F H. unfold mk_Product in H. inv_bind H. destruct r; [|discriminate]. injection H as <-. apply HQ. apply all_forall. intros d Hd. apply in_concat in Hd. destruct Hd as (m & Hm & Hd).
    apply in_map_iff in Hm. destruct Hm as (c & <- & Hc). rewrite Forall_forall in F. specialize (F c Hc). destruct c as [| | | |l]; try (destruct Hd as [<-|[]]; exact F). cbn [prod_terms] in Hd. apply HQ in F. exact (SpeFacts.All_In _ _ _ _ F Hd).
  Qed.
  Lemma sum_parts : forall (s : list (spe * lg S)) y (t : tr) cs, mapM (fun c => transform (fst c) y t) s = Ok cs -> forall c', In c' cs -> exists c, In c s /\ transform (fst c) y t = Ok c'.
  Proof.
    intros s y t cs E c' Hc'. apply mapM_Forall2 in E. induction E as [|a b l r Eb E IH]; [destruct Hc'|]. destruct Hc' as [<-|Hc']; [exists a; split; auto; now left|]. destruct (IH Hc') as (c & Hc & K). exists c. split; auto. now right.
  Qed.
  Lemma product_parts : forall (l : list spe) y (t : tr) cs, go y t l = Ok cs -> forall c', In c' cs -> In c' l \/ exists c, In c l /\ transform c y t = Ok c'.
  Proof.
    induction l as [|a l IH]; intros y t cs G c' Hc'; cbn [go] in G; [injection G as <-; destruct Hc'|]. destruct (known t (get_symbols a)).
    - inv_bind G. injection G as <-. destruct Hc' as [<-|Hc']; [right; exists a; split; auto; now left|left; now right].
    - inv_bind G. injection G as <-. destruct Hc' as [<-|Hc']; [left; now left|]. destruct (IH y t r E c' Hc') as [K|(c & Hc & K)]; [left; now right|right; exists c; split; auto; now right].
  Qed.
  (** transform keeps what a sum and a product share with their children, and extending the
      variables of a leaf keeps *)
  Lemma transform_keeps : forall (Q Q' : spe -> Prop) y (t : tr),
    (forall l, Q (SumSPE l) <-> All (fun c => Q (fst c)) l) -> (forall l, Q' (SumSPE l) <-> All (fun c => Q' (fst c)) l) -> (forall l, Q (ProductSPE l) <-> All Q' l) -> (forall l, Q' (ProductSPE l) <-> All Q' l) ->
    (forall disc x d supp cond env, Q (RealLeaf disc x d supp cond env) -> Q (RealLeaf disc x d supp cond (env ++ [(y, t)]))) -> (forall x v env, Q (AtomicLeaf x v env) -> Q (AtomicLeaf x v (env ++ [(y, t)]))) ->
    (forall disc x d supp cond env, Q' (RealLeaf disc x d supp cond env) -> Q' (RealLeaf disc x d supp cond (env ++ [(y, t)]))) -> (forall x v env, Q' (AtomicLeaf x v env) -> Q' (AtomicLeaf x v (env ++ [(y, t)]))) ->
    forall s s', transform s y t = Ok s' -> (Q s -> Q s') /\ (Q' s -> Q' s').
  Proof.
    intros Q Q' y t QS QS' QP QP' LR LA LR' LA'. induction s using spe_ind'; intros s' T; cbn [transform] in T.
    - inv_bind T. apply new_env_ok in E. destruct E as (-> & _). unfold mk_RealLeaf in T. inv_bind T. inv_bind T. injection T as <-. auto.
    - inv_bind T. apply new_env_ok in E. destruct E as (-> & _). injection T as <-. auto.
    - discriminate.
    - inv_bind T. pose proof (sum_parts l y t r E) as Pa. split; intros K.
      + apply QS in K. apply (sum_keeps Q QS r (map snd l)); auto. apply Forall_forall. intros c' Hc'. destruct (Pa c' Hc') as (c & Hc & Tc). apply (H c Hc c' Tc). exact (SpeFacts.All_In _ _ _ _ K Hc).
      + apply QS' in K. apply (sum_keeps Q' QS' r (map snd l)); auto. apply Forall_forall. intros c' Hc'. destruct (Pa c' Hc') as (c & Hc & Tc). apply (H c Hc c' Tc). exact (SpeFacts.All_In _ _ _ _ K Hc).
    - inv_bind T. inv_bind T. inv_bind T. change (go y t l = Ok r1) in E1.
      assert (F : All Q' l -> Forall Q' r1).
      { intros K. apply Forall_forall. intros c' Hc'. destruct (product_parts l y t r1 E1 c' Hc') as [Hc|(c & Hc & Tc)]; [exact (SpeFacts.All_In _ _ _ _ K Hc)|]. apply (H c Hc c' Tc). exact (SpeFacts.All_In _ _ _ _ K Hc). }
      assert (G : All Q' l -> Q' s') by (intros K; exact (prod_keeps Q' QP' r1 s' (F K) T)).
      split; intros K; [apply QP in K|apply QP' in K; auto]. specialize (G K). unfold mk_Product in T. inv_bind T. destruct r2; [|discriminate]. injection T as <-. apply QP. now apply QP'.
  Qed.
  Context (y : string) (t : tr) (Ny : nominal y = false).
  Lemma transform_open : forall many (s s' : spe), transform s y t = Ok s' -> open_leaves nominal cuts many s -> open_leaves nominal cuts many s'.
  Proof.
    intros many s s' T. apply (transform_keeps (open_leaves nominal cuts many) (open_leaves nominal cuts false) y t); auto; try (intros; reflexivity).
    - intros x v env (A & B). split; auto. intros z Hz. rewrite map_app in Hz. apply in_app_iff in Hz. destruct Hz as [Hz|[<-|[]]]; auto.
    - intros x v env (A & B). split; auto. intros z Hz. rewrite map_app in Hz. apply in_app_iff in Hz. destruct Hz as [Hz|[<-|[]]]; auto.
  Qed.
  Lemma transform_lumpy : forall (s s' : spe), transform s y t = Ok s' -> lumpy s -> lumpy s'.
  Proof.
    intros s s' T. apply (transform_keeps lumpy (fun _ => True) y t); auto; try (intros; reflexivity); intros l; cbn [lumpy]; split; auto; intros _; apply all_forall; auto.
  Qed.
  Lemma transform_diffuse : forall (s s' : spe), transform s y t = Ok s' -> diffuse s -> diffuse s'.
  Proof.
    induction s using spe_ind'; intros s' T K; cbn [transform] in T; try (destruct K; fail).
    - inv_bind T. unfold mk_RealLeaf in T. inv_bind T. inv_bind T. injection T as <-. exact K.
    - inv_bind T. apply (sum_keeps diffuse (fun l => iff_refl _) r (map snd l)); auto. apply Forall_forall. intros c' Hc'. destruct (sum_parts l y t r E c' Hc') as (c & Hc & Tc). apply (H c Hc c' Tc). exact (SpeFacts.All_In _ _ _ _ K Hc).
  Qed.
  Lemma transform_even : forall P (s s' : spe), transform s y t = Ok s' -> even P s -> even P s'.
  Proof.
    intros P s s' T K. destruct s as [disc x d supp cond env|x v env|x ws|l|l].
    - cbn [transform] in T. inv_bind T. unfold mk_RealLeaf in T. inv_bind T. inv_bind T. injection T as <-. exact K.
    - cbn [transform] in T. inv_bind T. injection T as <-. exact Logic.I.
    - discriminate.
    - assert (E : exists m, s' = SumSPE m) by (cbn [transform] in T; inv_bind T; unfold mk_Sum in T; repeat inv_bind T; match type of T with (if ?b then _ else _) = _ => destruct b end; [|discriminate]; injection T as <-; eauto).
      destruct E as (m & ->). destruct K as [K|K]; [left; exact (transform_lumpy _ _ T K)|right; exact (transform_diffuse _ _ T K)].
    - assert (E : exists m, s' = ProductSPE m) by (cbn [transform] in T; do 3 inv_bind T; unfold mk_Product in T; inv_bind T; match type of T with (if ?b then _ else _) = _ => destruct b end; [|discriminate]; injection T as <-; eauto).
      destruct E as (m & ->). exact Logic.I.
  Qed.
  Context (Dy : derived y = true).
  Lemma tidy_env_ext : forall x (env : tenv (N:=N)), tidy_env nominal derived x env -> tidy_env nominal derived x (env ++ [(y, t)]).
  Proof.
    intros x env (A & B & C). split; auto. split; auto. intros z Hz. rewrite map_app in Hz. apply in_app_iff in Hz. destruct Hz as [Hz|[<-|[]]]; auto.
  Qed.
  Lemma transform_tidy : forall pr (s s' : spe), transform s y t = Ok s' -> tidy nominal derived cuts pr s -> tidy nominal derived cuts pr s'.
  Proof.
    intros pr. induction s using spe_ind'; intros s' T K; cbn [transform] in T.
    - inv_bind T. apply new_env_ok in E. destruct E as (-> & _). unfold mk_RealLeaf in T. inv_bind T. inv_bind T. injection T as <-. apply every_leaf; [reflexivity|]. pose proof (every_here _ _ K) as (A & B). split; auto. now apply tidy_env_ext.
    - inv_bind T. apply new_env_ok in E. destruct E as (-> & _). injection T as <-. apply every_leaf; [reflexivity|]. apply tidy_env_ext. exact (every_here _ _ K).
    - discriminate.
    - inv_bind T. apply (mk_Sum_tidy nominal derived cuts pr r (map snd l)); auto. apply Forall_forall. intros c' Hc'. destruct (sum_parts l y t r E c' Hc') as (c & Hc & Tc). apply (H c Hc c' Tc). exact (every_sum _ l c K Hc).
    - inv_bind T. inv_bind T. inv_bind T. change (go y t l = Ok r1) in E1. apply (mk_Product_tidy nominal derived cuts pr r1); auto; [exact (every_here _ _ K)|]. apply Forall_forall. intros c' Hc'.
      destruct (product_parts l y t r1 E1 c' Hc') as [Hc|(c & Hc & Tc)]; [exact (every_prod _ l c' K Hc)|]. apply (H c Hc c' Tc). exact (every_prod _ l c K Hc).
  Qed.
End Shape.
