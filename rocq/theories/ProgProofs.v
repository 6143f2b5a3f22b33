(** Programs: the interpreter computes the meaning of commands. *)
From Coq Require Import List Bool String Reals Lra Lia ZArith QArith Qreals FunctionalExtensionality Permutation Classical.
From Verif Require Import Base Num Sets SetSpec SetIv SetProofs SetOr SetOps SetAlg SetBuilt
  Poly Trans TransSpec TransFacts PolyProofs InvProofs InvMain EvProofs ArithProofs
  Dnf DnfSpec DnfProofs DnfUnion Logs Spe SpeSpec SpeFacts SpeRect LeafProofs LeafEvents LeafCond SpeCons LeafGiven MemoProofs NormSorts LogprobProofs LogprobTop SpeEq SimplifyProofs CondTypes CondProofs CondTop PropDnf PropSpe SpeOps OpsProofs BuildProofs TransformProofs PropCons Prog ProgSpec ProgEvents.
Import ListNotations.
Local Open Scope R_scope.

(** ** Simple functions *)
Section Simple.
  Context {N : numsys} {S : logsys} {D : distsys N S} (dlaw : dist D -> (fval -> R) -> R).
  Notation spe := (spe D).
  Notation tr := (tr N).
  Notation den := (den dlaw).
  Notation wf_spe := (wf_spe dlaw).

  Lemma simple_sum : forall A (l : list A) (f : A -> asg -> R), (forall a, In a l -> simple (f a)) -> simple (fun w => sumR (map (fun a => f a w) l)).
  Proof.
    induction l as [|a l IH]; intros f H; [exact (simple_const 0)|]. apply (simple_ext (fun w => f a w + sumR (map (fun a => f a w) l))); [reflexivity|].
    apply simple_plus; [apply H; now left|]. apply IH. intros; apply H; now right.
  Qed.
  Lemma rect_filter : forall (p : string * (fval -> R) -> bool) L w, rect L w = rect (filter p L) w * rect (filter (fun x => negb (p x)) L) w.
  Proof.
    intros p L w. unfold rect. induction L as [|q L IH]; cbn [map filter]; [cbn; ring|]. destruct (p q); cbn [negb map]; repeat change (prodR (?a :: ?l)) with (a * prodR l); rewrite IH; ring.
  Qed.
  Lemma den_simple : forall s f, wf_spe s -> simple f -> simple (den s f).
  Proof.
    intros s f W Hf. destruct (simple_combo f Hf) as (T & HT & E). replace f with (combo T) by (extensionality a; auto).
    apply (simple_ext (fun w => sumR (map (fun t => fst t * den s (rect (snd t)) w) T))); [intros w; symmetry; now apply den_combo|].
    apply simple_sum. intros t Ht. apply simple_scale. rewrite Forall_forall in HT. specialize (HT t Ht). generalize dependent (snd t). clear T E Ht t f Hf. intros L HL.
    set (p := fun q : string * (fval -> R) => if dec (vars s (fst q)) then true else false).
    assert (O1 : rect_ok (filter p L)) by (unfold rect_ok in *; rewrite Forall_forall in *; intros q Hq; apply filter_In in Hq; apply HL; tauto).
    assert (O2 : rect_ok (filter (fun x => negb (p x)) L)) by (unfold rect_ok in *; rewrite Forall_forall in *; intros q Hq; apply filter_In in Hq; apply HL; tauto).
    apply (simple_ext (fun w => den s (rect (filter p L)) w0 * rect (filter (fun x => negb (p x)) L) w)); [|apply simple_scale; now apply rect_simple].
    intros w. replace (rect L) with (fun a => rect (filter p L) a * rect (filter (fun x => negb (p x)) L) a) by (extensionality a; symmetry; apply rect_filter).
    rewrite (den_factor dlaw); auto.
    - f_equal. apply den_closed; auto. intros a b H. unfold rect. f_equal. apply map_ext_in. intros q Hq. apply filter_In in Hq. destruct Hq as (_ & Hq). unfold p in Hq. destruct (dec (vars s (fst q))); [|discriminate]. f_equal. auto.
    - now apply rect_bnd.
    - intros a b H. unfold rect. f_equal. apply map_ext_in. intros q Hq. apply filter_In in Hq. destruct Hq as (_ & Hq). unfold p in Hq. destruct (dec (vars s (fst q))); [discriminate|]. f_equal. auto.
  Qed.
  Lemma put_simple : forall f y (t : tr) x, simple f -> good t -> only x t -> simple (fun a => f (upd a y (value_or (teval t a)))).
  Proof.
    intros f y t x Hf G O. induction Hf as [c|z g Bg|f g _ IHf _ IHg|f g _ IHf _ IHg|f g E _ IH].
    - constructor.
    - destruct (string_dec z y) as [->|Ne].
      + apply (simple_ext (fun a => (fun v => g (value_or (teval t (fun _ => v)))) (a x))).
        * intros a. rewrite upd_same. cbn. do 2 f_equal. apply teval_agree; auto. intros q Hq. now rewrite (O q Hq).
        * apply (simple_var x (fun v => g (value_or (teval t (fun _ => v))))). destruct Bg as (M & HM). exists M. auto.
      + apply (simple_ext (fun a => g (a z))); [|now constructor]. intros a. now rewrite upd_other.
    - now apply (simple_plus (fun a => f _) (fun a => g _)).
    - now apply (simple_mult (fun a => f _) (fun a => g _)).
    - apply (simple_ext (fun a => f (upd a y (value_or (teval t a))))); auto.
  Qed.
  Lemma lit_fails_simple : forall e : tr, gev e -> univariate e -> simple (ind (fails e)).
  Proof.
    induction e using tr_ind'; intros (G & Ev) Un; try discriminate.
    - unfold univariate in Un. cbn [lits] in Un. inversion Un as [|? ? (x & O) _]; subst. apply (lit_simple (EBasic k e v) _ x O). intros w w' E. unfold fails. rewrite (teval_agree (EBasic k e v) w w'); tauto.
    - apply (simple_ind_ext (fun w => forall a, In a l -> fails a w)); [intros w; symmetry; apply fails_or|]. pose proof (gev_or _ (conj G Ev)) as (_ & Gl). unfold univariate in Un. cbn [lits] in Un. apply lits_list in Un. rewrite Forall_forall in *.
      apply simple_ind_all. intros a Ha. now apply H; auto; apply Un.
    - apply (simple_ind_ext (fun w => exists a, In a l /\ fails a w)); [intros w; symmetry; apply fails_and|]. pose proof (gev_and _ (conj G Ev)) as (_ & Gl). unfold univariate in Un. cbn [lits] in Un. apply lits_list in Un. rewrite Forall_forall in *.
      apply simple_ind_ex. intros a Ha. now apply H; auto; apply Un.
  Qed.
  Lemma defined_simple : forall e : tr, gev e -> univariate e -> simple (ind (fun a => teval e a <> None)).
  Proof.
    intros e G Un. apply (simple_ind_ext (fun a => holds e a \/ fails e a)).
    - intros a. split; [intros [H|H] K; unfold holds, fails, one, zero in H; congruence|]. intros H. apply defined_cases; auto. apply G.
    - apply simple_ind_or; [now apply event_simple|now apply lit_fails_simple].
  Qed.
  Lemma fm_simple : forall x (v : pset N), simple (ind (fun a : asg => fm (a x) v)).
  Proof. intros x v. apply (simple_ind_var x (fun u => fm u v)). Qed.

  (** ** The first case that applies *)
  Lemma firsts_map : forall A B (g : A -> B) (l : list ((asg -> Prop) * A)), firsts (map (fun p => (fst p, g (snd p))) l) = map (fun p => (fst p, g (snd p))) (firsts l).
  Proof. induction l as [|p l IH]; cbn [firsts map]; auto. f_equal. rewrite IH, !map_map. reflexivity. Qed.
  Lemma firsts_snd : forall B (l : list ((asg -> Prop) * B)), map snd (firsts l) = map snd l.
  Proof. induction l as [|p l IH]; cbn [firsts map]; auto. f_equal. rewrite map_map. cbn [snd]. exact IH. Qed.
  Lemma firsts_simple : forall B (l : list ((asg -> Prop) * B)), (forall p, In p l -> simple (ind (fst p))) -> forall p, In p (firsts l) -> simple (ind (fst p)).
  Proof.
    induction l as [|q l IH]; intros H p Hp; cbn [firsts] in Hp; [destruct Hp|]. destruct Hp as [<-|Hp]; [apply H; now left|]. apply in_map_iff in Hp. destruct Hp as (r & <- & Hr). cbn [fst].
    apply simple_ind_and; [apply simple_ind_not; apply H; now left|]. apply IH; auto. intros; apply H; now right.
  Qed.
  Lemma firsts_total : forall B (l : list ((asg -> Prop) * B)) a, sumR (map (fun p => ind (fst p) a) (firsts l)) = ind (fun a => exists p, In p l /\ fst p a) a.
  Proof.
    induction l as [|q l IH]; intros a; cbn [firsts map].
    - cbn. symmetry. apply ind_false. intros (p & [] & _).
    - change (sumR (?a :: ?l)) with (a + sumR l). rewrite map_map. cbn [fst]. destruct (dec (fst q a)) as [Q|Q].
      + rewrite (ind_true _ (fst q)) by auto. rewrite (ind_true _ (fun a => exists p, In p (q :: l) /\ fst p a)) by (exists q; split; [now left|auto]).
        rewrite (sumR_ext _ _ (fun _ => 0)); [|intros p Hp; apply ind_false; tauto]. assert (Z0 : forall A (l : list A), sumR (map (fun _ => 0) l) = 0) by (clear; induction l as [|? l IH]; cbn [map sumR fold_right]; [auto|fold (sumR (map (fun _ : A => 0) l)); lra]). rewrite Z0. ring.
      + rewrite (ind_false _ (fst q)) by auto. rewrite (sumR_ext _ _ (fun p => ind (fst p) a)); [|intros p Hp; apply ind_eq; tauto]. rewrite IH, Rplus_0_l. apply ind_eq. split.
        * intros (p & Hp & K). exists p. split; [now right|auto].
        * intros (p & [<-|Hp] & K); [tauto|eauto].
  Qed.
End Simple.

(** ** Simplifying a sum keeps the types *)
Section Simplify.
  Context {N : numsys} {S : logsys} {D : distsys N S} (dlaw : dist D -> (fval -> R) -> R) (Ed : eq_dist dlaw).
  Context (hash : spe D -> Z) (nominal : string -> bool) (envof : string -> tenv (N:=N)).
  Notation spe := (spe D).
  Notation wf_spe := (wf_spe dlaw).
  Notation typed := (typed (D:=D) nominal envof).
  Lemma lse_pos : forall (l : list (lg S)) t, lse l = Ok t -> Forall (fun w => 0 < toP w) l -> 0 < toP t.
  Proof.
    intros l t H F. apply lse_sum in H. destruct H as (Ne & ->). destruct F as [|w l Pw F]; [tauto|]. cbn [map]. change (sumR (?a :: ?l)) with (a + sumR l).
    assert (0 <= sumR (map toP l)); [|lra]. clear -l. induction l as [|a l IH]; [cbn; lra|]. cbn [map]. change (sumR (?a :: ?l)) with (a + sumR l). pose proof (toP_nonneg S a). lra.
  Qed.
  Lemma simplify_typed : forall s t, wf_spe s -> typed s -> simplify hash s = Ok t -> typed t.
  Proof.
    intros s t W T H. destruct s as [| | |l|]; try discriminate H. cbn [simplify] in H. unfold simplify_sum in H. destruct l as [|(c, wc) l]; [discriminate H|]. destruct (is_leaf c).
    - revert H. generalize dependent ((c, wc) :: l). clear c wc l. intros l W T H. unfold simplify_sum_leaf in H. inv_bind H. clear E. destruct (blocks_ok _ (fun c : spe * lg S => hash (fst c)) l) as (Pm & Kb). set (p := partition_list_blocks (fun c : spe * lg S => hash (fst c)) l) in *. clearbody p.
      destruct (Nat.eqb _ _); [injection H as <-; exact T|].
      assert (Inp : forall b c, In b p -> In c b -> In c l) by (intros b c Hb Hc; apply (Permutation_in _ Pm); apply in_concat; eauto).
      destruct (Nat.eq_dec (List.length p) 1) as [L1|L1].
      + destruct p as [|b [|]]; try discriminate. destruct b as [|c b]; [discriminate|]. injection H as <-. apply (every_sum _ l); auto. apply (Inp (c :: b)); now left.
      + assert (H' : (do cs <- mapM (fun b => match b with c :: _ => Ok (fst c) | [] => Raise IndexError end) p; do ws <- mapM (fun b => lse (map snd b)) p; mk_Sum cs ws) = Ok t) by (destruct p as [|b [|]]; [exact H|cbn in L1; lia|exact H]).
        clear H. inv_bind H'. inv_bind H'. apply mapM_Forall2 in E, E0.
        apply (mk_Sum_every (part_ok nominal envof) True (part_sum nominal envof) r0 r1); auto.
        * apply Forall_forall. intros x Hx. destruct (ArithProofs.Forall2_in_r _ _ _ _ _ _ E Hx) as (b & Hb & Eb). destruct b as [|c b]; [discriminate|]. injection Eb as <-. apply (every_sum _ l); auto. apply (Inp (c :: b)); auto. now left.
        * intros _. apply Forall_forall. intros x Hx. destruct (ArithProofs.Forall2_in_r _ _ _ _ _ _ E0 Hx) as (b & Hb & Eb). apply (lse_pos _ _ Eb). apply Forall_map. apply Forall_forall. intros c Hc.
          pose proof (every_here _ _ T) as Pw. cbn in Pw. rewrite Forall_forall in Pw. apply Pw. eauto.
    - destruct (is_product c); [|discriminate H].
      destruct (simplify_product_ok dlaw Ed envof (part_ok nominal envof) (part_aenv nominal envof) True (part_sum nominal envof) (part_prod nominal envof) ((c, wc) :: l) t W T) as (_ & A & _); auto.
      intros c' m E. injection E as <- <-. pose proof (every_here _ _ T) as Pw. cbn in Pw. inversion Pw; auto.
  Qed.
End Simplify.

(** ** The branches *)
Section Block.
  Context {N : numsys} {S : logsys} {D : distsys N S} (io : iterorder N) (so : strorder) (po : polyoracle N) (fuel : nat).
  Context (dlaw : dist D -> (fval -> R) -> R) (Ed : eq_dist dlaw).
  Context (hash : spe D -> Z) (ids : spe D -> spe D -> nat) (no_simplify : bool) (nominal : string -> bool) (envof envof' : string -> tenv (N:=N)).
  Notation spe := (spe D).
  Notation tr := (tr N).
  Notation lg := (lg S).
  Notation den := (den dlaw).
  Notation wf_spe := (wf_spe dlaw).
  Notation surely := (surely dlaw).
  Notation typed := (typed (D:=D) nominal envof).
  Notation cond_ok := (cond_ok dlaw nominal envof).
  Notation tyd := (CondTypes.typed (D:=D) nominal envof').
  Lemma den_ext : forall s (f g : asg -> R) w, (forall a, f a = g a) -> den s f w = den s g w.
  Proof. intros s f g w H. f_equal. extensionality a. auto. Qed.
  Lemma kept_pos : forall A (l : list (A * lg)) p, In p (positive l) <-> In p l /\ 0 < toP (snd p).
  Proof.
    intros A l p. unfold positive. rewrite filter_In. pose proof (toP_nonneg S (snd p)) as Nn. pose proof (lisninf_ok S (snd p)) as K.
    destruct (lisninf (snd p)); cbn [negb].
    - assert (toP (snd p) = 0) by now apply K. split; [intros (_ & E); discriminate|]. intros (_ & E). lra.
    - assert (toP (snd p) <> 0) by (intros E; apply K in E; discriminate). split; [|tauto]. intros (Hp & _). split; auto. lra.
  Qed.

  Section One.
    Context (s : spe) (W : wf_spe s) (T : typed s) (A : asg -> Prop) (SA : surely s A).
    Context {B : Type}.
    Notation case := ((asg -> Prop) * B)%type.
    Definition event_at (q : case) (o : option tr) : Prop := event_for nominal (vars s) A (fst q) o.
    Lemma event_den : forall (q : case) o f w, event_at q o -> bnd f -> den s (fun a => f a * ind (fst q) a) w = match o with Some e => den s (fun a => f a * ind (holds e) a) w | None => 0 end.
    Proof.
      intros q o f w H Bf. destruct o as [e|]; cbn in H.
      - destruct H as (_ & _ & H). apply (den_as dlaw s (fun a => ~ A a)); auto with bnd. intros a Ha. f_equal. apply ind_eq. symmetry. apply H. now apply NNPP.
      - apply (law_null (den_kernel dlaw s W w) (fun a => ~ A a)); auto with bnd. intros a Ha. rewrite ind_false; [ring|]. apply H. now apply NNPP.
    Qed.
    Lemma event_pr : forall (q : case) o w, event_at q o -> den s (ind (fst q)) w = match o with Some e => den s (ind (holds e)) w | None => 0 end.
    Proof.
      intros q o w H. pose proof (event_den q o (fun _ => 1) w H (bnd_const _ 1)) as K. rewrite <- (den_ext s (fun a => 1 * ind (fst q) a)) by (intros; ring). rewrite K.
      destruct o; auto. apply (den_ext s). intros; ring.
    Qed.
    Lemma event_const : forall (q : case) o w, event_at q o -> den s (ind (fst q)) w = Pr dlaw s (fst q).
    Proof.
      intros q o w H. unfold Pr. rewrite !(event_pr q o) by auto. destruct o as [e|]; auto. destruct H as ((G & _ & _ & Sy) & _). apply den_closed; auto.
      intros a b E. apply ind_eq. unfold holds. rewrite (teval_agree e a b); [reflexivity|apply G|]. intros x Hx. auto.
    Qed.
    Lemma event_conditionable : forall (q : case) e, event_at q (Some e) -> conditionable dlaw nominal s e.
    Proof.
      intros q e ((G & Un & So & Sy) & Rg & _). split; auto. split; [|auto]. intros w. rewrite (den_ext s _ (fun _ => 0)); [apply (law_const (den_kernel dlaw s W w))|]. intros a. apply ind_false. intros K. apply K. apply Rg.
    Qed.
    Lemma event_given : forall (q : case) e t, event_at q (Some e) -> cond_ok s (holds e) t -> cond_ok s (fst q) t.
    Proof.
      intros q e t (_ & _ & H) C. apply (cond_ok_as dlaw hash nominal envof s (holds e)); auto. intros w. apply (law_null_sub (den_kernel dlaw s W w) (fun a => ~ A a)); auto.
    Qed.
    Context (Hid : forall s, distinct (ids s) s).
    Context (Hh : no_simplify = true \/ forall a b, is_leaf a = true -> is_leaf b = true -> hash a = hash b -> speqb (D:=D) a b = true).
    Notation valid := (valid dlaw (ids s) (within s) (Forall (centry_ok dlaw (ids s) nominal envof (within s))) (fun _ => True) (fun _ => True)).

    Lemma branches_ok : forall (Ps : list case) (evs : list (option tr)) subs rows, Forall2 event_at Ps evs -> List.length subs = List.length evs ->
      if_branches io so po fuel hash ids s evs subs = Ok rows ->
      exists ws, Forall2 (fun q w => toP w = Pr dlaw s (fst q)) Ps ws /\
        Forall2 (fun p row => snd (fst row) = snd (fst p) /\ snd row = snd p /\ cond_ok s (fst (fst (fst p))) (fst (fst row))) (positive (combine (combine Ps subs) ws)) rows.
    Proof.
      intros Ps evs subs rows F Ln H. pose proof (within_closed (ids s) s (Hid s)) as Uc.
      set (Q := fun rows : list (spe * (spe -> res (option spe)) * lg) => exists ws : list lg, Forall2 (fun q w => toP w = Pr dlaw s (fst q)) Ps ws /\
        Forall2 (fun p row => snd (fst row) = snd (fst p) /\ snd row = snd p /\ cond_ok s (fst (fst (fst p))) (fst (fst row))) (positive (combine (combine Ps subs) ws)) rows).
      change (Q rows). unfold if_branches in H.
      match type of H with fst (?m _) = _ => assert (K : sat valid m Q) end.
      2: { exact (proj2 (K Memo (fresh_valid dlaw (ids s) nominal envof (within s))) rows H). }
      apply sat_bind with (P := Forall2 (fun o w => forall q, event_at q o -> toP w = Pr dlaw s (fst q)) evs).
      - apply sat_mmap. intros [e|] He.
        + destruct (ArithProofs.Forall2_in_r _ _ _ _ _ _ F He) as (q & Hq & Eq). intros m V.
          destruct (logprob_valid io po fuel dlaw (ids s) nominal envof (within s) Uc s e m (within_self s) W (typed_atoms nominal envof s T)) as (V' & K); auto.
          * apply conditionable_askable. now apply (event_conditionable q).
          * split; auto. intros p Hp q' Eq'. rewrite (K p Hp). unfold prob, Pr. now rewrite (event_pr q' (Some e)).
        + apply sat_ret. intros q Eq. rewrite lninf_ok. unfold Pr. now rewrite (event_pr q None).
      - intros ws Fw. apply sat_bind with (P := fun _ => True); [apply sat_lift; auto|]. intros _ _.
        assert (Fp : Forall2 (fun q w => toP w = Pr dlaw s (fst q)) Ps ws) by (clear -F Fw; revert ws Fw; induction F; intros ws Fw; inversion Fw; subst; constructor; auto).
        assert (Ft : Forall2 (fun p p' => snd (fst p) = snd (fst p') /\ snd p = snd p' /\ event_at (fst (fst p)) (fst (fst p'))) (positive (combine (combine Ps subs) ws)) (positive (combine (combine evs subs) ws))).
        { clear -F Ln. revert subs ws Ln. induction F as [|q o Ps evs Hq F IH]; intros [|sub subs] ws Ln; try discriminate; [constructor..|]. destruct ws as [|w ws]; [constructor|]. cbn [combine]. unfold positive in *. cbn [filter snd]. destruct (negb (lisninf w)); [constructor; auto|]; apply IH; cbn in Ln; lia. }
        eapply sat_weaken; [apply sat_mmap with (P := fun p' row => snd (fst row) = snd (fst p') /\ snd row = snd p' /\ exists e, fst (fst p') = Some e /\ (conditionable dlaw nominal s e -> cond_ok s (holds e) (fst (fst row))))|].
        + intros p' Hp'. destruct (fst (fst p')) as [e|] eqn:Ee; [|apply sat_lift; discriminate].
          destruct (ArithProofs.Forall2_in_r _ _ _ _ _ _ Ft Hp') as (p & Hp & _ & _ & Eq). rewrite Ee in Eq. pose proof (event_conditionable _ _ Eq) as Ce.
          apply sat_bind with (P := fun t => cond_ok s (holds e) t).
          * intros m V. exact (condition_valid io so po fuel dlaw Ed (ids s) hash nominal envof (within s) Uc s e m (within_self s) W T Ce V).
          * intros t Ct. apply sat_ret. cbn [fst snd]. split; auto. split; auto. exists e. auto.
        + intros rs Fr. exists ws. split; auto. clear -Ft Fr W SA hash. revert rs Fr. induction Ft as [|p p' l l' (E1 & E2 & E3) Ft IH]; intros rs Fr; inversion Fr as [|? row ? rs' (R1 & R2 & e & R3 & R4) Fr']; subst; constructor; auto.
          split; [congruence|]. split; [congruence|]. rewrite R3 in E3. apply (event_given _ e); auto. apply R4. now apply (event_conditionable (fst (fst p))).
    Qed.
    Definition likely (q : case) : bool := if dec (0 < Pr dlaw s (fst q)) then true else false.
    (** the branches of positive probability: the case, the conditioned expression and what the
        subcommand makes of it *)
    Definition ran (Ps : list case) (subs : list (spe -> res (option spe))) (kids : list (case * spe * spe)) : Prop :=
      map (fun k => fst (fst k)) kids = filter likely Ps /\
      forall k, In k kids -> cond_ok s (fst (fst (fst k))) (snd (fst k)) /\ exists sub, In (fst (fst k), sub) (combine Ps subs) /\ sub (snd (fst k)) = Ok (Some (snd k)).
    Lemma block_kids : forall (Ps : list case) (evs : list (option tr)) subs o, Forall2 event_at Ps evs -> List.length subs = List.length evs ->
      sumR (map (fun q => Pr dlaw s (fst q)) Ps) = 1 ->
      if_block io so po fuel hash ids no_simplify (Some s) evs subs = Ok o ->
      exists t kids, o = Some t /\ ran Ps subs kids /\ kids <> [] /\
        ((forall k, In k kids -> wf_spe (snd k) /\ tyd (snd k)) ->
         wf_spe t /\ tyd t /\ (forall k x, In k kids -> vars t x <-> vars (snd k) x) /\
         forall f w, simple f -> den t f w = sumR (map (fun k => Pr dlaw s (fst (fst (fst k))) * den (snd k) f w) kids)).
    Proof.
      intros Ps evs subs o F Ln Tot H. unfold if_block in H. inv_bind H. clear E. inv_bind H. inv_bind H. inv_bind H. inv_bind H. rename E2 into E3. clear E1. rename r0 into rows, r3 into cs.
      destruct (branches_ok Ps evs subs rows F Ln E) as (ws & Fw & Fr). apply mapM_Forall2 in E3.
      assert (LP : List.length Ps = List.length subs) by (rewrite Ln; clear -F; induction F; simpl; auto).
      set (L := positive (combine (combine Ps subs) ws)) in *.
      assert (Wt : forall p, In p L -> In (fst (fst p), snd (fst p)) (combine Ps subs) /\ toP (snd p) = Pr dlaw s (fst (fst (fst p)))).
      { intros p Hp. apply kept_pos in Hp. destruct Hp as (Hp & Pp). destruct p as ((q, sub), w). cbn [fst snd] in *. pose proof (in_combine_l _ _ _ _ Hp) as Hq. split; auto.
        clear -Fw Hp. revert subs Hp. induction Fw as [|q' w' Ps ws E Fw IH]; intros [|sub' subs] Hp; cbn in Hp; try contradiction. destruct Hp as [Hp|Hp]; [injection Hp as -> _ ->; exact E|eauto]. }
      assert (Fl : map (fun p => fst (fst p)) L = filter likely Ps).
      { unfold L. clear -Fw LP. revert subs LP. induction Fw as [|q w' Ps ws E Fw IH]; intros [|sub subs] LP; try discriminate; auto. cbn [combine]. unfold positive in *. cbn [filter snd]. unfold likely at 1.
        pose proof (lisninf_ok S w') as Lw. pose proof (toP_nonneg S w') as Nw. destruct (lisninf w') eqn:En; cbn [negb].
        - assert (Z : toP w' = 0) by now apply Lw. destruct (dec (0 < Pr dlaw s (fst q))) as [K|K]; [lra|]. apply IH. cbn in LP; lia.
        - assert (Z : toP w' <> 0) by (intros K; apply Lw in K; congruence). destruct (dec (0 < Pr dlaw s (fst q))) as [K|K]; [|lra]. cbn [map fst]. f_equal. apply IH. cbn in LP; lia. }
      assert (Kd : exists kids : list (case * spe * spe), map (fun k => fst (fst k)) kids = map (fun p => fst (fst p)) L /\ map snd kids = cs /\
        map (fun k => Pr dlaw s (fst (fst (fst k)))) kids = map toP (map snd rows) /\
        forall k, In k kids -> cond_ok s (fst (fst (fst k))) (snd (fst k)) /\ exists sub, In (fst (fst k), sub) (combine Ps subs) /\ sub (snd (fst k)) = Ok (Some (snd k))).
      { clear -E3 Fr Wt. revert cs E3. induction Fr as [|p row l rows (R1 & R2 & R3) Fr IH]; intros cs E3; inversion E3 as [|? c ? cs' Hc E3']; subst.
        - exists []. repeat split; auto; destruct H.
        - destruct (IH (fun p Hp => Wt p (or_intror Hp)) cs' E3') as (kids & K1 & K2 & K3 & K4). inv_bind Hc. destruct r as [c'|]; [|discriminate]. injection Hc as <-. destruct (Wt p (or_introl eq_refl)) as (Z1 & Z2).
          exists ((fst (fst p), fst (fst row), c') :: kids). cbn [map fst snd]. split; [congruence|]. split; [congruence|]. split; [rewrite R2, Z2; congruence|].
          intros k [<-|Hk]; auto. cbn [fst snd]. split; auto. exists (snd (fst p)). split; auto. congruence. }
      destruct Kd as (kids & K1 & K2 & K3 & K4).
      assert (Tw : sumR (map toP (map snd rows)) = 1).
      { rewrite <- K3, <- Tot. rewrite <- (map_map (fun k => fst (fst k)) (fun q : case => Pr dlaw s (fst q)) kids), K1, Fl. clear -W. induction Ps as [|q Ps IH]; auto. cbn [filter map]. change (sumR (?a :: ?l)) with (a + sumR l). unfold likely at 1.
        destruct (dec (0 < Pr dlaw s (fst q))) as [K|K]; cbn [map]; [change (sumR (?a :: ?l)) with (a + sumR l); lra|].
        assert (0 <= Pr dlaw s (fst q)); [|lra]. apply (law_01 (den_kernel dlaw s W w0)). }
      assert (Ne : kids <> []) by (intros ->; cbn in K3; rewrite <- K3 in Tw; cbn in Tw; lra).
      assert (Lc : List.length cs = List.length (map snd rows)) by (rewrite <- K2, <- (map_length toP), <- K3, !map_length; reflexivity).
      assert (Law : forall f w, sumR (map (fun p => toP (snd p) * den (fst p) f w) (combine cs (map snd rows))) = sumR (map (fun k => Pr dlaw s (fst (fst (fst k))) * den (snd k) f w) kids)).
      { intros f w. rewrite <- K2 in *. clear -K3. revert K3. generalize (map snd rows). induction kids as [|k kids IH]; intros [|w' l] K3; try discriminate; auto. cbn [map] in K3. injection K3 as K3 K3'. cbn [map combine fst snd]. repeat change (sumR (?a :: ?l)) with (a + sumR l). rewrite (IH l) by auto. rewrite K3. reflexivity. }
      assert (Res : exists t, o = Some t /\ ((forall k, In k kids -> wf_spe (snd k) /\ tyd (snd k)) -> wf_spe t /\ tyd t /\ (forall k x, In k kids -> vars t x <-> vars (snd k) x) /\ forall f w, simple f -> den t f w = sumR (map (fun k => Pr dlaw s (fst (fst (fst k))) * den (snd k) f w) kids))).
      2: { destruct Res as (t & -> & Res). exists t, kids. split; auto. split; [split; [congruence|auto]|]. split; auto. }
      destruct (Nat.eq_dec (List.length cs) 1) as [L1|L1].
      - destruct cs as [|c [|]]; try discriminate. injection H as <-. exists c. split; auto. intros Wk. destruct kids as [|k [|]]; try discriminate. cbn in K2. injection K2 as <-. destruct (Wk k (or_introl eq_refl)) as (A1 & A2). split; auto. split; auto.
        split; [intros k' x [<-|[]]; tauto|]. intros f w Sf. rewrite <- K3 in Tw. cbn in Tw |- *. rewrite Rplus_0_r in *. rewrite Tw. ring.
      - assert (H' : (do s' <- mk_Sum cs (map snd rows); if no_simplify then Ok (Some s') else do s'' <- simplify hash s'; Ok (Some s'')) = Ok o) by (destruct cs as [|c [|]]; [exact H|cbn in L1; lia|exact H]). clear H. inv_bind H'. rename r0 into t.
        assert (Rest : (forall k, In k kids -> wf_spe (snd k) /\ tyd (snd k)) -> wf_spe t /\ tyd t /\ (forall k x, In k kids -> vars t x <-> vars (snd k) x) /\ forall f w, den t f w = sumR (map (fun k => Pr dlaw s (fst (fst (fst k))) * den (snd k) f w) kids)).
        { intros Wk. assert (Wc : Forall wf_spe cs) by (rewrite <- K2; apply Forall_map, Forall_forall; intros k Hk; now apply Wk).
          assert (Tc : Forall (every (part_ok nominal envof')) cs) by (rewrite <- K2; apply Forall_map, Forall_forall; intros k Hk; now apply Wk).
          destruct (mk_Sum_ok dlaw cs (map snd rows) t Wc E1 Tw) as (_ & Wt' & _ & Vt & Dt). split; auto. split; [|split].
          - apply (mk_Sum_every (part_ok nominal envof') True (part_sum nominal envof') cs (map snd rows)); auto. intros _. apply Forall_map. apply Forall_forall. intros row Hr. destruct (ArithProofs.Forall2_in_r _ _ _ _ _ _ Fr Hr) as (p & Hp & _ & -> & _). now apply kept_pos in Hp.
          - intros k x Hk. apply Vt. rewrite <- K2. now apply in_map.
          - intros f w. rewrite Dt. apply Law. }
        destruct no_simplify eqn:Ens.
        + injection H' as <-. exists t. split; auto. intros Wk. destruct (Rest Wk) as (B1 & B2 & B3 & B4). auto.
        + inv_bind H'. rename r0 into t'. injection H' as <-. exists t'. split; auto. intros Wk. destruct (Rest Wk) as (B1 & B2 & B3 & B4). destruct Hh as [Hh'|Hh']; [discriminate|].
          destruct (C28_simplify dlaw Ed hash nominal envof' t t' B1 B2) as (Q1 & Q2 & Q3); [intros l c d _ _ _ Ic Id; now apply Hh'|auto|].
          split; auto. split; [apply (simplify_typed dlaw Ed hash nominal envof' t); auto|]. split; [intros k x Hk; rewrite Q2; auto|]. intros f w Sf. rewrite <- Q3 by auto. auto.
    Qed.
    Lemma block_ok : forall (Ps : list case) (evs : list (option tr)) subs (V' : string -> Prop) (G : case -> kernel) o, Forall2 event_at Ps evs -> List.length subs = List.length evs ->
      sumR (map (fun q => Pr dlaw s (fst q)) Ps) = 1 ->
      (forall q sub t c, In (q, sub) (combine Ps subs) -> 0 < Pr dlaw s (fst q) -> cond_ok s (fst q) t -> sub t = Ok (Some c) ->
        wf_spe c /\ tyd c /\ (forall x, vars c x <-> V' x) /\ forall f w, simple f -> den c f w = G q f w) ->
      if_block io so po fuel hash ids no_simplify (Some s) evs subs = Ok o ->
      exists t, o = Some t /\ wf_spe t /\ tyd t /\ (forall x, vars t x <-> V' x) /\ forall f w, simple f -> den t f w = sumR (map (fun q => den s (ind (fst q)) w * G q f w) Ps).
    Proof.
      intros Ps evs subs V' G o F Ln Tot Sub H. destruct (block_kids Ps evs subs o F Ln Tot H) as (t & kids & -> & (K1 & K2) & Ne & Rest). exists t. split; auto.
      assert (Wk : forall k, In k kids -> wf_spe (snd k) /\ tyd (snd k) /\ (forall x, vars (snd k) x <-> V' x) /\ forall f w, simple f -> den (snd k) f w = G (fst (fst k)) f w).
      { intros k Hk. destruct (K2 k Hk) as (Ck & sub & Hs & Es). apply (Sub _ sub (snd (fst k))); auto. assert (Hq : In (fst (fst k)) (filter likely Ps)) by (rewrite <- K1; now apply in_map with (f := fun k => fst (fst k))). apply filter_In in Hq. destruct Hq as (_ & Hq). unfold likely in Hq. destruct (dec _); [auto|discriminate]. }
      destruct Rest as (B1 & B2 & B3 & B4); [intros k Hk; destruct (Wk k Hk) as (A1 & A2 & _); auto|]. split; auto. split; auto. split.
      - intros x. destruct kids as [|k kids]; [tauto|]. rewrite (B3 k x (or_introl eq_refl)). destruct (Wk k (or_introl eq_refl)) as (_ & _ & K & _). auto.
      - intros f w Sf. rewrite B4 by auto. transitivity (sumR (map (fun q => den s (ind (fst q)) w * G q f w) (filter likely Ps))).
        + rewrite <- K1, map_map. apply sumR_ext. intros k Hk. destruct (Wk k Hk) as (_ & _ & _ & ->); auto. f_equal. destruct (K2 k Hk) as (_ & sub & Hs & _). apply in_combine_l in Hs. destruct (Forall2_in_l _ _ _ _ _ _ F Hs) as (o' & _ & K). symmetry. exact (event_const _ o' w K).
        + clear -F W SA hash. induction F as [|q o Ps evs Hq F IH]; auto. cbn [filter map]. change (sumR (?a :: ?l)) with (a + sumR l). unfold likely at 1. rewrite (event_const q o w Hq). destruct (dec (0 < Pr dlaw s (fst q))) as [K|K]; cbn [map].
          * change (sumR (?a :: ?l)) with (a + sumR l). rewrite (event_const q o w Hq), IH. reflexivity.
          * assert (0 <= Pr dlaw s (fst q)); [apply (law_01 (den_kernel dlaw s W w0))|]. replace (Pr dlaw s (fst q)) with 0 by lra. rewrite IH. ring.
    Qed.
  End One.
End Block.


(** ** Commands *)
Section Crown.
  Context {N : numsys} {S : logsys} {D : distsys N S} (io : iterorder N) (so : strorder) (po : polyoracle N) (fuel : nat).
  Context (dlaw : dist D -> (fval -> R) -> R) (Ed : eq_dist dlaw).
  Context (hash : spe D -> Z) (ids : spe D -> spe D -> nat) (no_simplify : bool) (nominal : string -> bool).
  Notation spe := (spe D).
  Notation tr := (tr N).
  Notation command := (command (N:=N) (D:=D)).
  Notation den := (den dlaw).
  Notation wf_spe := (wf_spe dlaw).
  Notation surely := (surely dlaw).
  Notation typed := (typed (D:=D) nominal no_env).
  Notation meaning := (meaning dlaw).
  Notation interpret := (interpret io so po fuel hash ids no_simplify).

  (** the expression stands for the distribution K of the variables V *)
  Definition stands (o : option spe) (V : string -> Prop) (K : kernel) : Prop :=
    match o with
    | Some s => wf_spe s /\ typed s /\ (forall x, vars s x <-> V x) /\ forall f w, simple f -> den s f w = K f w
    | None => (forall x, ~ V x) /\ forall f w, K f w = f w
    end.
  Lemma sure_surely : forall s V K P, stands (Some s) V K -> simple (ind P) -> sure K P -> surely s P.
  Proof. intros s V K P (_ & _ & _ & H) Sp Hs w. rewrite H; auto. now apply simple_ind_not. Qed.
  Lemma given_stands : forall s V K P t, stands (Some s) V K -> simple (ind P) -> cond_ok dlaw nominal no_env s P t -> stands (Some t) V (restrict K P).
  Proof.
    intros s V K P t (W & T & Vs & H) Sp (Wt & Vt & Tt & Pos & Gv). split; auto. split; auto. split; [intros x; now rewrite Vt|].
    intros f w Sf. unfold restrict. rewrite <- !H by (auto; now apply simple_mult). rewrite <- (Gv f Sf w). field. specialize (Pos w). lra.
  Qed.
  Lemma ask_iff : forall (V V' : string -> Prop) (e : tr), (forall x, V x <-> V' x) -> ask_ok nominal V e -> ask_ok nominal V' e.
  Proof. intros V V' e H (A & B & C & E). repeat split; auto; try apply A. intros x Hx. apply H. auto. Qed.
  Lemma surely_all_in : forall s A (l : list A) (P : A -> asg -> Prop), wf_spe s -> (forall a, In a l -> surely s (P a)) -> surely s (fun w => forall a, In a l -> P a w).
  Proof.
    intros s A l P W H. induction l as [|a l IH].
    - intros w. rewrite (den_ext dlaw s _ (fun _ => 0)); [apply (law_const (den_kernel dlaw s W w))|]. intros b. apply ind_false. intros K. apply K. intros ? [].
    - intros w. apply (law_null_sub (den_kernel dlaw s W w) (fun w => ~ (P a w /\ forall b, In b l -> P b w))).
      + apply (surely_and dlaw); auto; [apply H; now left|]. apply IH. intros; apply H; now right.
      + intros b K (K1 & K2). apply K. intros c [<-|Hc]; auto.
  Qed.
  Lemma transform_no_env : forall s y t s', wf_spe s -> typed s -> nominal y = false -> good t -> transform s y t = Ok s' -> typed s'.
  Proof.
    intros s y t s' W T Ny G H. pose proof (transform_typed dlaw nominal no_env s y t s' W T Ny H) as T'.
    replace (envof_ext no_env y t) with (@no_env N) in T'; auto. extensionality x. unfold envof_ext, no_env. cbn [map]. destruct (known t []) eqn:E; auto.
    exfalso. destruct (symbols_some t G) as (z & Hz). exact (proj1 (known_ok t []) E z Hz).
  Qed.
  Lemma runs_map : forall A B X (g : A -> B) (f : B -> X -> res X) l s, runs f (map g l) s = runs (fun a => f (g a)) l s.
  Proof. induction l as [|a l IH]; intros s; cbn [runs map]; auto. destruct (f (g a) s); cbn [bind]; auto. Qed.
  Lemma fold_map : forall A B X (g : A -> B) (f : X -> B -> X) l s, fold_left f (map g l) s = fold_left (fun s a => f s (g a)) l s.
  Proof. induction l as [|a l IH]; intros s; cbn [fold_left map]; auto. Qed.
  Lemma subs_at : forall A B (l : list A) (g : A -> B) (P : A -> asg -> Prop) (c : A -> command) Ps, Ps = firsts (map (fun a => (P a, c a)) l) ->
    forall q sub, In (q, sub) (combine Ps (map (fun a s => interpret (c a) (Some s)) l)) -> sub = (fun s => interpret (snd q) (Some s)).
  Proof.
    intros A B l g P c Ps E q sub H. assert (K : map snd Ps = map c l) by (rewrite E, firsts_snd, map_map; reflexivity). clear E.
    revert l K H. induction Ps as [|p Ps IH]; intros [|a l] K H; try discriminate; cbn in H; [destruct H|]. cbn in K. injection K as K1 K2. destruct H as [H|H]; [injection H as <- <-; now rewrite K1|eauto].
  Qed.
  Context (Hid : forall s, distinct (ids s) s).
  Context (Hh : no_simplify = true \/ forall a b, is_leaf a = true -> is_leaf b = true -> hash a = hash b -> speqb (D:=D) a b = true).

  (** what a command does to a distribution *)
  Definition does (c : command) (V : string -> Prop) (K : kernel) (W : string -> Prop) (o' : option spe) : Prop :=
    stands o' W (meaning c K) /\ (forall x, V x -> W x) /\ (calm c -> forall f w, simple f -> reads V f -> meaning c K f w = K f w).
  (** the law of total probability, for a branching *)
  Lemma branch_ok : forall X (l : list X) (P : X -> asg -> Prop) (c : X -> command) s V K A W' evs o',
    stands (Some s) V K -> surely s A -> (forall x, In x l -> simple (ind (P x))) -> sure K (fun a => exists x, In x l /\ P x a) ->
    Forall2 (fun o q => event_for nominal (vars s) A (fst q) o) evs (firsts (map (fun x => (P x, c x)) l)) ->
    (forall Q d, In (Q, d) (firsts (map (fun x => (P x, c x)) l)) -> chance K Q -> forall o o', stands o V (restrict K Q) -> interpret d o = Ok o' -> does d V (restrict K Q) W' o') ->
    if_block io so po fuel hash ids no_simplify (Some s) evs (map (fun x s => interpret (c x) (Some s)) l) = Ok o' ->
    let M := total K (map (fun x => (P x, meaning (c x))) l) in
    stands o' W' M /\ (forall x, V x -> W' x) /\ ((forall x, In x l -> calm (c x)) -> forall f w, simple f -> reads V f -> M f w = K f w).
  Proof.
    intros X l P c s V K A W' evs o' St SA Sp Ex Ev IH H M. pose proof St as (W & T & Vs & Dk). set (Ps := firsts (map (fun x => (P x, c x)) l)) in *.
    assert (SPs : forall q, In q Ps -> simple (ind (fst q))).
    { apply firsts_simple. intros p Hp. apply in_map_iff in Hp. destruct Hp as (x & <- & Hx). cbn [fst]. auto. }
    assert (F : Forall2 (event_at nominal s A) Ps evs) by (clear -Ev; induction Ev; constructor; auto).
    assert (Len : List.length (map (fun x s => interpret (c x) (Some s)) l) = List.length evs).
    { rewrite map_length. transitivity (List.length Ps); [|clear -F; induction F; simpl; auto]. unfold Ps. rewrite <- (map_length snd (firsts _)), firsts_snd, !map_length. reflexivity. }
    assert (Tot : forall w, sumR (map (fun q => den s (ind (fst q)) w) Ps) = 1).
    { intros w. rewrite <- (law_sum (den_kernel dlaw s W w) _ Ps (fun q => ind (fst q))) by (intros; apply bnd_ind).
      rewrite (den_ext dlaw s _ (ind (fun a => exists x, In x l /\ P x a))).
      - apply surely_den; auto. apply (sure_surely s V K); auto. now apply simple_ind_ex.
      - intros a. unfold Ps. rewrite firsts_total. apply ind_eq. split.
        + intros (p & Hp & Pa). apply in_map_iff in Hp. destruct Hp as (x & <- & Hx). eauto.
        + intros (x & Hx & Pa). exists (P x, c x). split; auto. apply in_map_iff. eauto. }
    assert (Md : forall f w, M f w = sumR (map (fun q => den s (ind (fst q)) w * meaning (snd q) (restrict K (fst q)) f w) Ps)).
    { intros f w. unfold M, total. replace (map (fun x => (P x, meaning (c x))) l) with (map (fun p => (fst p, meaning (snd p))) (map (fun x => (P x, c x)) l)) by (rewrite map_map; reflexivity).
      rewrite firsts_map, map_map. fold Ps. cbn [fst snd]. apply sumR_ext. intros q Hq. rewrite (Dk (ind (fst q))); auto. }
    assert (Run : forall q sub t d, In (q, sub) (combine Ps (map (fun x s => interpret (c x) (Some s)) l)) -> 0 < Pr dlaw s (fst q) -> cond_ok dlaw nominal no_env s (fst q) t -> sub t = Ok (Some d) -> In q Ps /\ does (snd q) V (restrict K (fst q)) W' (Some d)).
    { intros q sub t d Hq Pq Cq Hd. pose proof (subs_at X X l (fun x => x) P c Ps eq_refl q sub Hq) as ->. pose proof (in_combine_l _ _ _ _ Hq) as Hq'. split; auto. destruct q as (Q, d'). cbn [fst snd] in *.
      apply (IH Q d' Hq') in Hd; [exact Hd| |].
      + exists w0. rewrite <- Dk by (apply (SPs (Q, d') Hq')). unfold Pr in Pq. lra.
      + apply (given_stands s V K); auto. apply (SPs (Q, d') Hq'). }
    pose proof (fun V' G => block_ok io so po fuel dlaw Ed hash ids no_simplify nominal no_env no_env s W T A SA Hid Hh Ps evs _ V' G o' F Len (Tot w0)) as Bl.
    assert (B1 : stands o' W' M).
    { destruct (Bl W' (fun q => meaning (snd q) (restrict K (fst q)))) as (t & -> & Wt & Tt & Vt & Dt); auto.
      - intros q sub t d Hq Pq Cq Hd. destruct (Run q sub t d Hq Pq Cq Hd) as (_ & Sd & _). exact Sd.
      - split; auto. split; auto. split; auto. intros f w Sf. rewrite Dt, Md by auto. reflexivity. }
    split; auto. split.
    - destruct (Bl (fun x => V x \/ W' x) (fun q => meaning (snd q) (restrict K (fst q)))) as (t & -> & _ & _ & Vt & _); auto.
      + intros q sub t d Hq Pq Cq Hd. destruct (Run q sub t d Hq Pq Cq Hd) as (_ & (K1 & K2 & K3 & K4) & Vq & _). split; auto. split; auto. split; auto. intros x. rewrite K3. split; auto. intros [K'|K']; auto.
      + intros x Vx. destruct B1 as (_ & _ & K3 & _). apply K3, Vt. auto.
    - intros Cl f w Sf Rf. 
      destruct (Bl W' (fun q g w => if dec (reads V g) then restrict K (fst q) g w else meaning (snd q) (restrict K (fst q)) g w)) as (t & -> & _ & _ & _ & Dt); auto.
      + intros q sub t d Hq Pq Cq Hd. destruct (Run q sub t d Hq Pq Cq Hd) as (Hq' & (K1 & K2 & K3 & K4) & _ & Cm). split; auto. split; auto. split; auto. intros g w' Sg. destruct (dec (reads V g)) as [Rg|Rg]; [|now apply K4].
        rewrite K4 by auto. apply Cm; auto. assert (Iq : In (snd q) (map snd Ps)) by now apply in_map. unfold Ps in Iq. rewrite firsts_snd, map_map in Iq. apply in_map_iff in Iq. destruct Iq as (x & Ix & Hx). cbn [snd] in Ix. rewrite <- Ix. exact (Cl x Hx).
      + destruct B1 as (_ & _ & _ & K4). rewrite <- K4, Dt by auto. rewrite <- (Dk f w Sf).
        transitivity (sumR (map (fun q => den s (fun a => f a * ind (fst q) a) w) Ps)).
        * apply sumR_ext. intros q Hq. destruct (dec (reads V f)) as [_|K']; [|tauto]. unfold restrict. rewrite <- !Dk by (auto; apply simple_mult; auto). destruct (Req_dec (den s (ind (fst q)) w) 0) as [Z|Z]; [|field; auto].
          rewrite Z, Rmult_0_l. symmetry. apply (law_null (den_kernel dlaw s W w) (fst q)); auto with bnd.
          -- apply bnd_mult; [now apply simple_bnd|apply bnd_ind].
          -- intros a Ha. rewrite ind_false by auto. ring.
        * rewrite <- (law_sum (den_kernel dlaw s W w) _ Ps (fun q a => f a * ind (fst q) a)) by (intros; apply bnd_mult; [now apply simple_bnd|apply bnd_ind]).
          apply (den_as dlaw s (fun a => ~ exists x, In x l /\ P x a)); auto.
          -- apply (sure_surely s V K); auto. now apply simple_ind_ex.
          -- apply simple_bnd. apply simple_sum. intros q Hq. apply simple_mult; auto.
          -- now apply simple_bnd.
          -- intros a Ha. apply NNPP in Ha. transitivity (f a * sumR (map (fun q => ind (fst q) a) Ps)); [rewrite Rmult_comm, <- sumR_scale; apply sumR_ext; intros; ring|].
             unfold Ps. rewrite firsts_total, ind_true; [ring|]. destruct Ha as (x & Hx & Pa). exists (P x, c x). split; auto. apply in_map_iff. eauto.
  Qed.

  Theorem run_ok : forall c V K W, fits dlaw nominal c V K W -> forall o o', stands o V K -> interpret c o = Ok o' -> does c V K W o'.
  Proof.
    induction 1 as [V K|x d l V W K Ed' Sl Wx|y t V W K Gt Rt Ny (x & Ot) Df Rg Wy|e V K Ae Rg|bs V K W Gd Ex Sub IH|x vs f V K W Vx Cs Ex Sub IH|n0 n1 f V K W Fi IH|V K|c cs V K V' W F1 IH1 F2 IH2]; intros o o' St H.
    - cbn in H. injection H as <-. split; auto.
    - cbn [Prog.interpret] in H. rewrite Ed' in H. cbn [bind] in H. destruct Sl as (Wl & Tl & Vl). destruct o as [s|].
      + inv_bind H. injection H as <-. destruct St as (Ws & Ts & Vs & Dk). destruct (mk_Product_ok dlaw [s; l] r) as (Wr & _ & Vr & _ & Ap & Dr); auto. split; [|split].
        * split; auto. split; [apply (mk_Product_every (part_ok nominal no_env) (part_prod nominal no_env) [s; l]); auto|]. split.
          -- intros z. rewrite Vr, Wx, <- Vs, <- Vl. split.
             ++ intros (c & [<-|[<-|[]]] & Hc); auto.
             ++ intros [K'|K']; eauto using in_eq, in_cons.
          -- intros f w Sf. rewrite Dr. cbn [den_prod ProgSpec.meaning]. rewrite Ed'. apply Dk. now apply den_simple.
        * intros z Vz. apply Wx. auto.
        * intros _ f w Sf Rf. cbn [ProgSpec.meaning]. rewrite Ed'. f_equal. extensionality a. rewrite (den_reach dlaw l Wl _ (fun _ => f a)); [apply (law_const (den_kernel dlaw l Wl a))|].
          intros b Hb. symmetry. apply Rf. intros z Vz. apply Hb. intros K'. inversion Ap as [|? ? Ap' _]; subst. inversion Ap' as [|? ? Ap2 _]; subst. apply (Ap2 z); auto. now apply Vs.
      + injection H as <-. destruct St as (Ve & Dk). split; [|split].
        * split; auto. split; auto. split.
          -- intros z. rewrite Wx, Vl. split; auto. intros [K'|K']; auto. destruct (Ve z K').
          -- intros f w Sf. cbn [ProgSpec.meaning]. rewrite Ed', Dk. reflexivity.
        * intros z Vz. destruct (Ve z Vz).
        * intros _ f w Sf Rf. cbn [ProgSpec.meaning]. rewrite Ed', !Dk. rewrite (den_ext dlaw l f (fun _ => f w)); [apply (law_const (den_kernel dlaw l Wl w))|]. intros a. apply Rf. intros z Vz. destruct (Ve z Vz).
    - cbn [Prog.interpret] in H. destruct o as [s|]; [|discriminate]. cbn [on] in H. inv_bind H. injection H as <-. pose proof St as (Ws & Ts & Vs & Dk).
      assert (Nt : surely s (nice t)).
      { apply (surely_and dlaw s (fun a => teval t a <> None) (regular true t)); auto; apply (sure_surely s V K); auto; apply (lit_simple t _ x Ot); intros w w' E'.
        - now rewrite (teval_agree t w w').
        - split; apply regular_agree; auto. intros z Hz. symmetry. auto. }
      destruct (transform_ok dlaw s y t r Ws (typed_heavy nominal no_env s Ts) Gt Rt Nt E) as (Wr & Ny' & Sy & Vr & Dr). split; [|split].
      + split; auto. split; [now apply (transform_no_env s y t)|]. split.
        * intros z. now rewrite Vr, Vs, Wy.
        * intros f w Sf. rewrite Dr. cbn [ProgSpec.meaning]. apply Dk. now apply (put_simple f y t x).
      + intros z Vz. apply Wy. auto.
      + intros _ f w Sf Rf. cbn [ProgSpec.meaning]. f_equal. extensionality a. apply Rf. intros z Vz. apply upd_other. intros ->. apply Ny'. now apply Vs.
    - cbn [Prog.interpret] in H. destruct o as [s|]; [|discriminate]. cbn [on] in H. inv_bind H. injection H as <-. pose proof St as (Ws & Ts & Vs & Dk). split; [|split; [auto|intros []]]. cbn [ProgSpec.meaning].
      destruct (ask_iff V (vars s) e (fun x => iff_sym (Vs x)) Ae) as (G & Un & So & Sy).
      assert (Ce : conditionable dlaw nominal s e) by (split; auto; split; auto; apply (sure_surely s V K); auto; now apply regular_simple).
      pose proof (fresh_condition io so po fuel dlaw Ed (ids s) hash nominal no_env s e r Ws Ts (Hid s) Ce E) as Cr. apply (given_stands s V K); auto. now apply event_simple.
    - cbn [Prog.interpret] in H. destruct o as [s|]; [|discriminate]. cbn [on] in H. inv_bind H. rename r into evs. pose proof St as (Ws & Ts & Vs & Dk). unfold does. cbn [ProgSpec.meaning].
      set (A := fun w => forall e, In e (somes (map fst bs)) -> regular true e w /\ teval e w <> None).
      assert (Gu : forall e, In (Some e) (map fst bs) -> guard nominal (vars s) e).
      { intros e He. destruct (Gd e He) as ((Ae & Nv) & _). split; auto. now apply (ask_iff V). }
      destruct (branch_ok _ bs (fun b => test (fst b)) snd s V K A W evs o') as (B1 & B2 & B3); auto.
      + apply surely_all_in; auto. intros e He. apply in_somes in He. destruct (Gd e He) as (((G & Un & _) & _) & R1 & R2). apply surely_and; auto; apply (sure_surely s V K); auto; [now apply regular_simple|now apply defined_simple].
      + intros b Hb. destruct (fst b) as [e|] eqn:Eb; [|apply simple_ind_const]. destruct (Gd e) as (((G & Un & _) & _) & _); [rewrite <- Eb; now apply in_map|]. now apply event_simple.
      + apply (if_events_ok io po fuel nominal (vars s) A bs evs); auto. intros e He. split; auto. intros w Aw. apply Aw. now apply in_somes.
      + split; auto. split; auto. intros Cl. apply B3. cbn [calm] in Cl. intros b Hb. exact (All_In _ _ _ b Cl Hb).
    - cbn [Prog.interpret] in H. inv_bind H. rename r into evs. destruct o as [s|]; [|unfold if_block in H; inv_bind H; discriminate]. pose proof St as (Ws & Ts & Vs & Dk). unfold does. cbn [ProgSpec.meaning]. fold (numbered vs) in H.
      destruct (branch_ok _ (numbered vs) (fun p => matches x (snd p)) (fun p => f (fst p) (snd p)) s V K (fun _ => True) W evs o') as (B1 & B2 & B3); auto.
      + intros w. rewrite (den_ext dlaw s _ (fun _ => 0)); [apply (law_const (den_kernel dlaw s Ws w))|]. intros a. apply ind_false. tauto.
      + intros p _. destruct (snd p) as [v|u|u]; [apply fm_simple|apply (simple_ind_var x (fun z => z = FStr u))|apply (simple_ind_var x (fun z => z = FNum (toR u)))].
      + intros w. specialize (Ex w). rewrite <- Ex. f_equal. extensionality a. apply ind_eq. apply not_iff_compat. split.
        * intros (p & Hp & M). destruct p as (n, v). unfold numbered in Hp. apply in_combine_r in Hp. eauto.
        * intros (v & Hv & M). assert (exists n, In (n, v) (numbered vs)) as (n & Hn); [|exists (n, v); auto]. clear -Hv. unfold numbered. assert (L : List.length (seq 0 (List.length vs)) = List.length vs) by apply seq_length. revert L. generalize (seq 0 (List.length vs)). induction vs as [|u vs IH]; intros [|n ns] L; try discriminate; [destruct Hv..|]. destruct Hv as [->|Hv]; [exists n; now left|]. destruct (IH Hv ns) as (m & Hm); [simpl in L; lia|]. exists m. now right.
      + apply (switch_events_ok io nominal (vars s) (fun _ => True) x vs (fun p => f (fst p) (snd p)) evs); auto; [now apply Vs|]. apply seq_length.
    - unfold does in *. cbn [Prog.interpret ProgSpec.meaning calm] in *. rewrite fold_map in IH. destruct (IH o o') as (B1 & B2 & B3); auto; [rewrite runs_map; exact H|]. split; auto. split; auto. intros Cl. apply B3. apply All_intro. intros c Hc. apply in_map_iff in Hc. destruct Hc as (i & <- & _). auto.
    - cbn in H. injection H as <-. split; auto.
    - cbn [Prog.interpret runs] in H. inv_bind H. destruct (IH1 o r St E) as (A1 & A2 & A3). destruct (IH2 r o' A1 H) as (B1 & B2 & B3). split; auto. split; auto.
      intros (C1 & C2) f w Sf Rf. change (meaning (Sequence (c :: cs)) K) with (meaning (Sequence cs) (meaning c K)). rewrite B3; auto. intros a b E'. apply Rf. auto.
  Qed.
End Crown.
