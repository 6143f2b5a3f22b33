(** What conditioning keeps: the kind of the leaves, sums without sums as children, and products
    appear only if there were products. *)
From Coq Require Import List Bool String Reals Lra Lia ZArith QArith PeanoNat.
From Verif Require Import Base Num Sets SetSpec Poly Trans TransSpec Dnf DnfSpec Logs Spe SpeSpec SpeFacts MemoProofs SpeEq Prog TotalSpec.
Import ListNotations.
Local Open Scope R_scope.

Section Shape.
  Context {N : numsys} {S : logsys} {D : distsys N S} (io : iterorder N) (so : strorder) (po : polyoracle N) (fuel : nat).
  Context (ident : spe D -> nat) (hash : spe D -> Z) (nominal derived : string -> bool) (cuts : string -> R -> Prop) (pr : Prop).
  Notation spe := (spe D).
  Notation lg := (lg S).
  Notation memo := (memo (N:=N) (D:=D)).
  Notation M := (M (N:=N) (D:=D)).
  Definition is_sum (s : spe) : bool := match s with SumSPE _ => true | _ => false end.
  (** the variable of a leaf is not derived; the others of a leaf are *)
  Definition tidy_env (x : string) (env : tenv (N:=N)) : Prop :=
    nominal x = false /\ derived x = false /\ forall y, In y (map fst env) -> nominal y = false /\ (y = x \/ derived y = true).
  Definition tidy_part (s : spe) : Prop :=
    match s with
    | RealLeaf disc x _ _ _ env => tidy_env x env /\ (disc = true -> forall r, cuts x r -> exists z, r = IZR z)
    | AtomicLeaf x _ env => tidy_env x env
    | NominalLeaf x _ => nominal x = true /\ derived x = false
    | SumSPE l => Forall (fun c => is_sum (fst c) = false) l
    | ProductSPE _ => pr
    end.
  Definition tidy : spe -> Prop := every tidy_part.

  Lemma tidy_sum : forall l, tidy (SumSPE l) <-> Forall (fun c => tidy (fst c) /\ is_sum (fst c) = false) l.
  Proof.
    intros l. split.
    - intros T. pose proof (every_here _ _ T) as P. cbn in P. rewrite Forall_forall in *. intros c Hc. split; [exact (every_sum _ l c T Hc)|auto].
    - intros F. rewrite Forall_forall in F. split; [apply Forall_forall; intros c Hc; now apply F|]. apply all_forall. intros c Hc. now apply F.
  Qed.
  Lemma tidy_prod : forall l, tidy (ProductSPE l) <-> pr /\ Forall tidy l.
  Proof.
    intros l. split.
    - intros T. pose proof (every_here _ _ T) as P. split; auto. apply Forall_forall. intros c Hc. exact (every_prod _ l c T Hc).
    - intros (P & F). rewrite Forall_forall in F. split; auto. now apply all_forall.
  Qed.
  Lemma mk_Sum_tidy : forall cs ws t, Forall tidy cs -> mk_Sum cs ws = Ok t -> tidy t.
  Proof.
    intros cs ws t F H. unfold mk_Sum in H. inv_bind H. inv_bind H. inv_bind H. inv_bind H. destruct r2; [|discriminate]. injection H as <-. apply tidy_sum. apply Forall_forall. intros d Hd.
    apply in_concat in Hd. destruct Hd as (m & Hm & Hd). apply in_map_iff in Hm. destruct Hm as ((c, w) & <- & Hc). apply in_combine_l in Hc. rewrite Forall_forall in F. specialize (F c Hc). cbn [fst snd] in Hd.
    destruct c as [| | |l|]; try (destruct Hd as [<-|[]]; split; [exact F|reflexivity]). cbn [sum_terms] in Hd. apply in_map_iff in Hd. destruct Hd as (u & <- & Hu). cbn [fst].
    apply tidy_sum in F. rewrite Forall_forall in F. now apply F.
  Qed.
  Lemma mk_Product_tidy : forall cs t, pr -> Forall tidy cs -> mk_Product cs = Ok t -> tidy t.
  Proof.
    intros cs t P F H. unfold mk_Product in H. inv_bind H. destruct r; [|discriminate]. injection H as <-. apply tidy_prod. split; auto. apply Forall_forall. intros d Hd. apply in_concat in Hd. destruct Hd as (m & Hm & Hd).
    apply in_map_iff in Hm. destruct Hm as (c & <- & Hc). rewrite Forall_forall in F. specialize (F c Hc). destruct c as [| | | |l]; try (destruct Hd as [<-|[]]; exact F). cbn [prod_terms] in Hd.
    apply tidy_prod in F. destruct F as (_ & F). rewrite Forall_forall in F. auto.
  Qed.
  Lemma sum_or_one_tidy : forall cs ws t, Forall tidy cs -> sum_or_one cs ws = Ok t -> tidy t.
  Proof.
    intros cs ws t F H. destruct cs as [|c [|c' cs]]; cbn [sum_or_one] in H; try (eapply mk_Sum_tidy; eauto; fail). injection H as <-. now inversion F.
  Qed.
  Lemma list_product_tidy : forall l t, pr -> Forall tidy l -> spe_list_to_product l = Ok t -> tidy t.
  Proof.
    intros l t P F H. destruct l as [|c [|c' l]]; cbn [spe_list_to_product] in H; try (eapply mk_Product_tidy; eauto; fail). injection H as <-. now inversion F.
  Qed.

  (** ** Simplification *)
  Lemma add_block_in : forall A h (a : A) p k l x, In (k, l) (add_block h a p) -> In x l -> x = a \/ exists k' l', In (k', l') p /\ In x l'.
  Proof.
    induction p as [|(k', m) p IH]; intros k l x H Hx; cbn in H.
    - destruct H as [H|[]]. injection H as <- <-. destruct Hx as [<-|[]]. auto.
    - destruct (Z.eqb h k').
      + destruct H as [H|H]; [injection H as <- <-; apply in_app_iff in Hx; destruct Hx as [Hx|[<-|[]]]; auto; right; exists k', m; split; auto; now left|]. right. exists k, l. split; auto. now right.
      + destruct H as [H|H]; [injection H as <- <-; right; exists k', m; split; auto; now left|]. destruct (IH k l x H Hx) as [->|(k2 & l2 & H2 & Hx2)]; auto. right. exists k2, l2. split; auto. now right.
  Qed.
  Lemma blocks_from : forall A (h : A -> Z) l b x, In b (partition_list_blocks h l) -> In x b -> In x l.
  Proof.
    intros A h l b x Hb Hx. unfold partition_list_blocks in Hb. apply in_map_iff in Hb. destruct Hb as ((k, b') & <- & Hb). cbn [snd] in Hx.
    assert (G : forall l p k b x, In (k, b) (fold_left (fun p a => add_block (h a) a p) l p) -> In x b -> In x l \/ exists k' b', In (k', b') p /\ In x b').
    { clear. induction l as [|a l IH]; intros p k b x Hb Hx; cbn [fold_left] in Hb; [right; eauto|]. destruct (IH _ _ _ _ Hb Hx) as [K|(k' & b' & K & Hx')]; [left; now right|].
      destruct (add_block_in _ _ _ _ _ _ _ K Hx') as [->|K']; [left; now left|right; exact K']. }
    destruct (G l [] k b' x Hb Hx) as [K|(? & ? & [] & _)]; exact K.
  Qed.
  Lemma simplify_leaf_tidy : forall l t, tidy (SumSPE l) -> simplify_sum_leaf hash l = Ok t -> tidy t.
  Proof.
    intros l t T H. unfold simplify_sum_leaf in H. inv_bind H. pose proof (proj1 (tidy_sum l) T) as F. rewrite Forall_forall in F.
    set (p := partition_list_blocks (fun c : spe * lg => hash (fst c)) l) in *.
    assert (Hp : forall b c, In b p -> In c b -> tidy (fst c)) by (intros b c Hb Hc; apply F; exact (blocks_from _ _ _ _ _ Hb Hc)).
    destruct (Nat.eqb _ _); [injection H as <-; exact T|].
    assert (G : (do cs <- mapM (fun b : list (spe * lg) => match b with c :: _ => Ok (fst c) | [] => Raise IndexError end) p; do ws <- mapM (fun b => lse (map snd b)) p; mk_Sum cs ws) = Ok t -> tidy t).
    { intros G. inv_bind G. inv_bind G. apply (mk_Sum_tidy r0 r1); auto. apply mapM_Forall2 in E0. clear -E0 Hp. induction E0 as [|b c p cs Eb E0 IH]; constructor.
      - destruct b as [|c' b]; [discriminate|]. injection Eb as <-. apply (Hp (c' :: b)); now left.
      - apply IH. intros b' c' Hb. apply Hp. now right. }
    destruct p as [|b [|b' p']]; [exact (G H)| |exact (G H)]. destruct b as [|c b]; [discriminate|]. injection H as <-. apply (Hp (c :: b)); now left.
  Qed.
  Lemma helper_tidy : forall st b wb st', pr -> Forall tidy (fst st) -> Forall tidy b -> simplify_helper st b wb = Ok st' -> Forall tidy (fst st').
  Proof.
    intros (a, wa) b wb st' P Fa Fb H. unfold simplify_helper in H. inv_bind H. inv_bind H. cbn [fst] in Fa.
    assert (Sub : forall f (l : list spe), Forall tidy l -> Forall tidy (filter f l)) by (intros f l F; apply Forall_forall; intros c Hc; apply filter_In in Hc; rewrite Forall_forall in F; now apply F).
    destruct (Nat.eqb _ 0).
    - inv_bind H. inv_bind H. inv_bind H. injection H as <-. cbn [fst]. constructor; [|constructor]. apply (mk_Sum_tidy [r1; r2] r); [|assumption]. constructor; [now apply (list_product_tidy a)|constructor; [now apply (list_product_tidy b)|constructor]].
    - destruct (Nat.eqb _ _); [injection H as <-; exact Fa|]. inv_bind H. inv_bind H. inv_bind H. injection H as <-. cbn [fst]. constructor; [|now apply Sub].
      apply (mk_Sum_tidy [r1; r2] r); [|assumption]. constructor; [|constructor; [|constructor]]; (eapply list_product_tidy; [exact P| |eassumption]; now apply Sub).
  Qed.
  Lemma simplify_tidy : forall s t, tidy s -> simplify hash s = Ok t -> tidy t.
  Proof.
    intros [| | |l|] t T H; try discriminate H. cbn [simplify] in H. unfold simplify_sum in H. destruct l as [|(c, w) l]; [discriminate|]. destruct (is_leaf c); [now apply (simplify_leaf_tidy ((c, w) :: l))|].
    destruct (is_product c) eqn:Ep; [|discriminate]. unfold simplify_sum_product in H. destruct (forallb _ _); [|injection H as <-; exact T].
    pose proof (proj1 (tidy_sum _) T) as F. inversion F as [|? ? (Tc & _) F']; subst. cbn [fst] in *. destruct c as [| | | |m]; try discriminate Ep. apply tidy_prod in Tc. destruct Tc as (P & Fm).
    inv_bind H. inv_bind H. inv_bind H. eapply list_product_tidy; [exact P| |exact H]. clear H E0 E1. cbn [product_children snd] in E.
    assert (G : forall l st st', Forall (fun c => tidy (fst c) /\ is_sum (fst c) = false) l -> Forall tidy (fst st) -> foldM (fun st c => simplify_helper st (product_children (fst c)) (snd c)) l st = Ok st' -> Forall tidy (fst st')).
    { clear -P. induction l as [|c l IH]; intros st st' F Fs E; cbn [foldM] in E; [injection E as <-; exact Fs|]. inv_bind E. inversion F as [|? ? (Tc & _) F']; subst. apply (IH r st'); auto. eapply helper_tidy; [exact P|exact Fs| |exact E0].
      destruct c as ([| | | |m], w); cbn [fst product_children]; auto. cbn [fst] in Tc. apply tidy_prod in Tc. apply Tc. }
    exact (G l (m, w) r F' Fm E).
  Qed.

  (** ** Conditioning *)
  Lemma leaf_condition_tidy : forall s v t, tidy s -> leaf_solved_condition io s v = Ok t -> tidy t.
  Proof.
    intros [disc x d supp cond env|x a env|x ws|l|l] v t T H; cbn [leaf_solved_condition] in H; try discriminate H.
    - inv_bind H. inv_bind H. destruct (lisninf r0); [discriminate|]. destruct (peqb _ _); [injection H as <-; exact T|]. inv_bind H. destruct r1 as [|i l]; [discriminate|]. inv_bind H.
      destruct (positive r1) as [|q qs]; [discriminate|]. inv_bind H. inv_bind H. eapply sum_or_one_tidy; [|exact H]. apply mapM_Forall2 in E4. clear -E4 T.
      induction E4 as [|q' c qs' cs Ec E4 IH]; constructor; auto. unfold mk_RealLeaf in Ec. inv_bind Ec. inv_bind Ec. injection Ec as <-. exact T.
    - inv_bind H. inv_bind H. injection H as <-. exact T.
    - inv_bind H. inv_bind H. destruct r0 as [|[vs b|vs|i]|u]; try discriminate. inv_bind H. destruct (Qeq_bool r0 0); [discriminate|]. destruct (Qeq_bool r0 1); [injection H as <-; exact T|].
      unfold mk_NominalLeaf in H. repeat (inv_bind H). injection H as <-. exact T.
  Qed.

  (** a table of results that are tidy *)
  Definition tidied (m : memo) : Prop := Forall (fun e => tidy (snd e)) (m_condition m).
  Notation keeps m := (sat tidied m (fun _ => True)).
  Lemma keeps_memo : forall s f (m : M lg), keeps m -> keeps (memo_logprob ident s f m).
  Proof.
    intros s f m K t V. unfold memo_logprob. destruct (find_key _ _ _); [split; auto|]. destruct (K t V) as (V' & _). destruct (m t) as [[r|e] t']; cbn [fst snd] in *; split; auto.
  Qed.
  Lemma sat_memo : forall s f (m : M spe), sat tidied m tidy -> sat tidied (memo_condition ident s f m) tidy.
  Proof.
    intros s f m K t V. unfold memo_condition. destruct (find_key _ _ _) eqn:Ef.
    - split; auto. intros a Ea. injection Ea as <-. unfold tidied in V. clear -V Ef. induction (m_condition t) as [|(k, v) l IH]; [discriminate|]. inversion V; subst. cbn [find_key] in Ef. destruct (factor_key_eqb _ _); [injection Ef as <-; auto|auto].
    - destruct (K t V) as (V' & R). destruct (m t) as [[r|e] t']; cbn [fst snd] in *; split; auto. constructor; auto.
  Qed.
  Lemma keeps_mmap : forall A B (f : A -> M B) l, (forall a, In a l -> keeps (f a)) -> keeps (mmap f l).
  Proof. intros A B f l H. eapply sat_weaken; [apply (sat_mmap tidied A B f (fun _ _ => True)); auto|auto]. Qed.
  Lemma keeps_lift : forall A (r : res A), keeps (lift r).
  Proof. intros. apply sat_lift. auto. Qed.
  Lemma keeps_ret : forall A (r : A), keeps (mret r).
  Proof. intros. apply sat_ret. auto. Qed.
  Lemma keeps_bind : forall A B (m : M A) (k : A -> M B), keeps m -> (forall a, keeps (k a)) -> keeps (mbind m k).
  Proof. intros A B m k Hm Hk. eapply sat_bind; [exact Hm|auto]. Qed.
  Notation kids_keep kids := (forall k : kid (N:=N) (D:=D), In k kids -> forall f, keeps (snd k f)).
  Lemma keeps_conj : forall kids J, kids_keep kids -> keeps (logprob_conjunction io kids J).
  Proof.
    intros kids J H. unfold logprob_conjunction. apply keeps_bind; [apply keeps_lift|]. intros keys. apply keeps_bind; [|intros; apply keeps_ret]. apply keeps_mmap. intros key _. unfold logprob_conjunction_key.
    apply keeps_bind; [apply keeps_lift|]. intros [|p c]; [apply keeps_ret|]. destruct (nth_error kids key) eqn:En; [|apply keeps_lift]. apply H. eapply nth_error_In; eauto.
  Qed.
  Lemma keeps_loop : forall kids f, kids_keep kids -> forall n stack avoid pos neg, keeps (ie_loop io kids f n stack avoid pos neg).
  Proof.
    intros kids f H. induction n as [|n IH]; intros [|(u, i) stack] avoid pos neg; cbn [ie_loop]; try apply keeps_ret; try apply keeps_lift. destruct (existsb _ _); [apply IH|].
    apply keeps_bind; [now apply keeps_conj|]. intros p. destruct (Nat.odd _); apply IH.
  Qed.
  Lemma keeps_product : forall kids f, kids_keep kids -> keeps (product_logprob io kids f).
  Proof.
    intros kids f H. unfold product_logprob. apply keeps_bind; [now apply keeps_loop|]. intros pn. apply keeps_bind; [apply keeps_lift|]. intros p. destruct (_ || _); [apply keeps_ret|].
    apply keeps_bind; [apply keeps_lift|]. intros q. apply keeps_lift.
  Qed.
  Lemma keeps_mem : forall s f, keeps (logprob_mem io po fuel ident s f).
  Proof.
    induction s using spe_ind'; intros f; cbn [logprob_mem]; apply keeps_memo; try apply keeps_lift.
    - apply keeps_bind; [|intros; apply keeps_lift]. apply keeps_mmap. intros c Hc. apply keeps_bind; [now apply H|]. intros; apply keeps_ret.
    - apply keeps_product. intros k Hk g. apply in_map_iff in Hk. destruct Hk as (c & <- & Hc). now apply H.
  Qed.
  Lemma keeps_logprob : forall s e, keeps (logprob io po fuel ident s e).
  Proof.
    intros s e. unfold logprob. destruct (is_leaf s).
    - apply keeps_bind; [apply keeps_lift|]. intros e'. apply keeps_memo, keeps_lift.
    - apply keeps_bind; [apply keeps_lift|]. intros [d|]; [|apply keeps_ret]. apply keeps_bind; [apply keeps_lift|]. intros f. apply keeps_mem.
  Qed.

  Lemma condition_mem_tidy : forall s, tidy s -> forall f, sat tidied (condition_mem io so po fuel ident hash s f) tidy.
  Proof.
    induction s using spe_ind'; intros T f; cbn [condition_mem]; apply sat_memo;
      try (apply sat_lift; intros t E; inv_bind E; unfold leaf_condition in E; inv_bind E; inv_bind E; eapply leaf_condition_tidy; [exact T|exact E]).
    - unfold sum_condition. eapply sat_bind with (P := fun ps => Forall2 (fun c p => fst p = c) (map (fun c => (logprob_mem io po fuel ident (fst c), condition_mem io so po fuel ident hash (fst c), snd c)) l) ps).
      { apply sat_mmap. intros c Hc. apply sat_bind with (P := fun _ => True); [|intros p _; now apply sat_ret]. apply in_map_iff in Hc. destruct Hc as (c' & <- & Hc'). cbn [fst]. apply keeps_mem. }
      intros ps Fp. pose proof (proj1 (tidy_sum l) T) as F. rewrite Forall_forall in F.
      assert (Hq : forall q, In q (positive ps) -> exists c, In c l /\ snd (fst (fst q)) = condition_mem io so po fuel ident hash (fst c)).
      { intros q Hq. unfold positive in Hq. apply filter_In in Hq. destruct Hq as (Hq & _). destruct (ArithProofs.Forall2_in_r _ _ _ _ _ _ Fp Hq) as (k & Hk & <-). apply in_map_iff in Hk. destruct Hk as (c & E & Hc). exists c. split; auto. now rewrite <- E. }
      destruct (positive ps) as [|q qs]; [apply sat_lift; discriminate|].
      eapply sat_bind with (P := Forall2 (fun _ t => tidy t) (q :: qs)).
      { apply sat_mmap. intros q' Hq'. destruct (Hq q' Hq') as (c & Hc & ->). apply H; auto. now apply F. }
      intros cs Fc. apply sat_lift. intros t E. inv_bind E. eapply sum_or_one_tidy; [|exact E]. clear -Fc. induction Fc; auto.
    - pose proof (proj1 (tidy_prod l) T) as (P & F). rewrite Forall_forall in F.
      assert (Kk : forall k : kid (N:=N) (D:=D), In k (map (fun c => (get_symbols c, logprob_mem io po fuel ident c)) l) -> forall f, keeps (snd k f)) by (intros k Hk g; apply in_map_iff in Hk; destruct Hk as (c & <- & _); apply keeps_mem).
      unfold product_condition. eapply sat_bind with (P := fun _ => True).
      { apply keeps_mmap. intros c _. apply keeps_bind; [now apply keeps_conj|]. intros; apply keeps_ret. }
      intros ps _. eapply sat_bind with (P := fun _ => True); [apply keeps_lift|]. intros t0 _. eapply sat_bind with (P := fun _ => True); [apply (keeps_mem (ProductSPE l))|]. intros p0 _. eapply sat_bind with (P := fun _ => True); [apply keeps_lift|]. intros _ _.
      destruct (positive ps) as [|q qs]; [apply sat_lift; discriminate|]. eapply sat_bind with (P := fun _ => True); [apply keeps_lift|]. intros weights _.
      eapply sat_bind with (P := Forall2 (fun _ cs => Forall tidy cs) (q :: qs)).
      { apply sat_mmap. intros q' _. unfold condition_clause. eapply sat_weaken; [apply (sat_mmap tidied) with (P := fun _ t => tidy t)|].
        - intros k Hk. apply in_map_iff in Hk. destruct Hk as (c & <- & Hc). cbn [fst snd]. destruct (filter _ _) as [|x xs]; [apply sat_ret; now apply F|]. eapply sat_bind with (P := fun _ => True); [apply keeps_lift|]. intros sc _. apply H; auto.
        - intros cs Fc. clear -Fc. induction Fc; auto. }
      intros css Fc. apply sat_lift. intros t E. inv_bind E. rename r into products.
      assert (Fp : Forall tidy products).
      { assert (Fs : Forall (Forall tidy) css) by (clear -Fc; induction Fc; auto). apply mapM_Forall2 in E0. clear -E0 Fs P. induction E0 as [|cs t css ts Et E0 IH]; constructor; inversion Fs; subst; auto. eapply mk_Product_tidy; eauto. }
      assert (G : (do s <- mk_Sum products weights; simplify hash s) = Ok t -> tidy t) by (intros G; inv_bind G; eapply simplify_tidy; [eapply mk_Sum_tidy; eauto|exact G]).
      destruct products as [|p [|p' ps']]; [exact (G E)| |exact (G E)]. injection E as <-. now inversion Fp.
  Qed.
  Theorem condition_tidy : forall s e, tidy s -> sat tidied (condition io so po fuel ident hash s e) tidy.
  Proof.
    intros s e T. unfold condition. destruct (is_leaf s).
    - eapply sat_bind with (P := fun _ => True); [apply keeps_lift|]. intros e' _. apply sat_memo. apply sat_lift. intros t E. inv_bind E. eapply leaf_condition_tidy; eauto.
    - eapply sat_bind with (P := fun _ => True); [apply keeps_lift|]. intros [d|] _; [|apply sat_lift; discriminate].
      eapply sat_bind with (P := fun _ => True).
      { unfold nonzero_clauses. destruct d; try apply keeps_ret. apply keeps_bind; [apply keeps_lift|]. intros fs. apply keeps_bind; [apply keeps_mmap; intros; apply keeps_mem|]. intros ps. destruct (positive _); apply keeps_lift. }
      intros d' _. eapply sat_bind with (P := fun _ => True); [apply keeps_lift|]. intros d2 _. eapply sat_bind with (P := fun _ => True); [apply keeps_lift|]. intros f _. now apply condition_mem_tidy.
  Qed.
End Shape.
