(** Events at leaves: substitution, solving, and the probability of an event. *)
From Coq Require Import List Bool String Reals Lra Lia ZArith QArith Qreals FunctionalExtensionality Permutation.
From Verif Require Import Base Num Sets SetSpec SetIv SetProofs SetOr SetOps SetAlg SetBuilt
  Poly Trans TransSpec TransFacts PolyProofs InvProofs InvMain EvProofs ArithProofs
  Dnf DnfSpec DnfProofs DnfUnion Logs Spe SpeSpec SpeFacts SpeRect LeafProofs.
Import ListNotations.
Local Open Scope R_scope.

Lemma FOP_Forall2 : forall A B (P : A -> B -> Prop) (R : A -> A -> Prop) (S : B -> B -> Prop) l m, Forall2 P l m ->
  (forall a a' b b', P a b -> P a' b' -> R a a' -> S b b') -> ForallOrdPairs R l -> ForallOrdPairs S m.
Proof.
  intros A B P R S l m F H. induction F as [|a b l m Hab F IH]; intros K; [constructor|]. inversion K as [|? ? Ka Kl]; subst. constructor; auto.
  apply Forall_forall. intros b' Hb. destruct (Forall2_in_r _ _ _ _ _ _ F Hb) as (a' & Ha & Pa). rewrite Forall_forall in Ka. eauto.
Qed.

Section Num.
  Context {N : numsys} (io : iterorder N) (po : polyoracle N) (fuel : nat).
  Notation tr := (tr N).
  Definition numeric (w : asg) (x : string) : Prop := exists r, w x = FNum r.
  Lemma num_op_num : forall f v y, num_op f v = Some y -> exists r, y = FNum r.
  Proof. intros f [[x|s]|] y H; simpl in H; try discriminate. destruct (f x); try discriminate. injection H as <-. eauto. Qed.
  (** transforms of numbers are numbers *)
  Lemma teval_num : forall (t : tr) w y, good t -> realv t -> (forall x, In x (symbols t) -> numeric w x) -> teval t w = Some y -> exists r, y = FNum r.
  Proof.
    induction t using tr_ind'; intros w y G Rt Nu E; cbn [teval] in E; try (now apply num_op_num in E); try contradiction.
    - injection E as <-. apply Nu. now left.
    - cbn [good] in G. destruct G as (_ & G). assert (Sub : forall p, In p l -> good (fst p) /\ realv (fst p) /\ forall x, In x (symbols (fst p)) -> numeric w x).
      { intros p Hp. assert (Q := All_In _ _ _ p G Hp). cbv beta in Q. split; [tauto|]. split; [tauto|]. intros x Hx. apply Nu. cbn [symbols]. apply in_sunions. exists (symbols (fst p)). split; auto. apply in_map_iff. eauto. }
      clear Nu G. induction l as [|p l IH]; [discriminate|]. cbn [map pick] in E. inversion H as [|? ? (Hp & _) Hl]; subst.
      destruct (dec (teval (snd p) w = one)).
      + destruct (Sub p (or_introl eq_refl)) as (A & B & C). now apply (Hp w y).
      + apply IH; auto. intros q Hq. apply Sub. now right.
    - destruct k; [| |contradiction]; destruct (teval t w) as [[r|s]|]; try discriminate; unfold truth, one, zero in E; destruct (dec _); injection E as <-; eauto.
  Qed.
  Lemma lookup_key : forall A x (l : list (string * A)), In x (map fst l) -> exists t, lookup x l = Some t.
  Proof.
    induction l as [|(y, t) l IH]; intros H; [destruct H|]. simpl in *. destruct (String.eqb_spec x y); [eauto|]. apply IH. destruct H; congruence.
  Qed.
  Lemma num_keys : forall X env w, env_built (N:=N) X env -> env_good env -> consistent env w -> numeric w X ->
    forall y, In y (map fst env) -> numeric w y.
  Proof.
    intros X env w B. induction B as [|env y t B IH Fr Sy]; intros G C Nx z Hz.
    - destruct Hz as [<-|[]]. auto.
    - assert (Le : forall a b, lookup a env = Some b -> lookup a (env ++ [(y, t)]) = Some b).
      { intros a b L. clear -L. induction env as [|(c, d) env IH]; [discriminate|]. simpl in *. destruct (String.eqb a c); auto. }
      assert (Ke : forall x, In x (map fst env) -> numeric w x).
      { apply IH; auto; intros a b L; [apply (G a b)|apply (C a b)]; auto. }
      rewrite map_app, in_app_iff in Hz. destruct Hz as [Hz|[<-|[]]]; auto. cbn [fst] in *.
      assert (Ly : lookup y (env ++ [(y, t)]) = Some t).
      { clear -Fr. induction env as [|(c, d) env IH]; simpl; [now rewrite String.eqb_refl|]. simpl in Fr. destruct (String.eqb_spec y c); [subst; tauto|]. apply IH. tauto. }
      destruct (G y t Ly) as (Gt & Rt). destruct (teval_num t w (w y) Gt Rt) as (r & Hr); [intros x Hx; apply Ke; auto|apply C; auto|]. exists r; auto.
  Qed.
  Lemma built_symbols : forall X env, env_built (N:=N) X env -> forall y t, lookup y env = Some t -> forall z, In z (symbols t) -> In z (map fst env).
  Proof.
    intros X env B. induction B as [|env y t B IH Fr Sy]; intros a b L z Hz.
    - simpl in L. destruct (String.eqb a X); [|discriminate]. injection L as <-. simpl in *. auto.
    - rewrite map_app, in_app_iff. left. assert (lookup a env = Some b \/ b = t) as [L'| ->]; [|eauto|auto].
      clear -L. induction env as [|(c, d) env IH]; simpl in *; [destruct (String.eqb a y); [injection L as ->; auto|discriminate]|]. destruct (String.eqb a c); auto.
  Qed.
  (** substitution keeps regularity at assignments of numbers *)
  Lemma subs_regular : forall env w, consistent env w ->
    (forall y u, lookup y env = Some u -> regular true u w /\ forall z, In z (symbols u) -> numeric w z) ->
    forall t t' g, good t -> (forall x, In x (symbols t) -> numeric w x) -> regular g t w -> subs io po fuel env t = Ok t' -> regular g t' w.
  Proof.
    intros env w C Hd.
    assert (Ns : forall t t' : tr, (forall x, In x (symbols t) -> numeric w x) -> subs io po fuel env t = Ok t' -> forall x, In x (symbols t') -> numeric w x).
    { intros t t' Nt H x Hx. destruct (subs_symbols io po fuel env t t' H x Hx) as [(K & _)|(y & u & _ & _ & L & K)]; [auto|]. now apply (Hd y u). }
    induction t using tr_ind'; intros t' g G Nt Rg H'; pose proof H' as H0; cbn [subs] in H';
      match type of H' with (if negb ?b then _ else _) = _ => destruct b; cbn [negb] in H'; [|injection H' as <-; exact Rg] end;
      try (inv_bind H'; injection H' as <-; cbn [regular good] in *; apply IHt; tauto).
    - destruct (lookup x env) as [u|] eqn:L; injection H' as <-; [|exact Rg]. apply regular_mono. now apply (Hd x).
    - inv_bind H'. injection H' as <-. cbn [regular good] in *. destruct Rg as (Rg & Z). split; [apply IHt; tauto|]. now rewrite (subs_teval io po fuel env w C _ _ E).
    - inv_bind H'. inv_bind H'. apply Piecewise_shape in H'. destruct H' as (-> & L & _). apply mapM_Forall2 in E, E0. cbn [regular] in *. destruct Rg as (Rg & Dj).
      cbn [good] in G. destruct G as (_ & G).
      assert (F : Forall2 (fun p q => subs io po fuel env (fst p) = Ok (fst q) /\ subs io po fuel env (snd p) = Ok (snd q)) l (combine r r0)).
      { clear -E E0. revert r0 E0. induction E; intros r0 E0; inversion E0; subst; simpl; constructor; auto. }
      split.
      + apply All_intro. intros q Hq. destruct (Forall2_in_r _ _ _ _ _ _ F Hq) as (p & Hp & S1 & S2). rewrite Forall_forall in H. destruct (H p Hp) as (I1 & I2).
        assert (Q := All_In _ _ _ p G Hp). assert (Q' := All_In _ _ _ p Rg Hp). cbv beta in Q, Q'. split; [apply I1|apply I2]; try tauto.
        * intros x Hx. apply Nt. cbn [symbols]. apply in_sunions. exists (symbols (fst p)). split; auto. apply in_map_iff. eauto.
        * intros x Hx. apply Nt. apply Q. auto.
      + eapply (FOP_Forall2 _ _ _ _ _ _ _ F); [|exact Dj]. intros p p' q q' (_ & S1) (_ & S2) K. unfold holds in *.
        now rewrite (subs_teval io po fuel env w C _ _ S1), (subs_teval io po fuel env w C _ _ S2).
    - inv_bind H'. injection H' as <-. cbn [regular] in *. split; [apply IHt; try tauto; destruct k; apply G|]. intros _. right. right. exact (Ns t r Nt E).
    - inv_bind H'. apply EventOr_shape in H'. subst t'. cbn [regular good] in *. apply mapM_Forall2 in E. destruct G as (_ & G).
      apply All_intro. intros t' Ht. destruct (Forall2_in_r _ _ _ _ _ _ E Ht) as (e & He & Se). rewrite Forall_forall in H. assert (Q := All_In _ _ _ e G He).
      assert (Q' := All_In _ _ _ e Rg He). cbv beta in Q, Q'. apply (H e He t'); try tauto.
      intros x Hx. apply Nt. cbn [symbols]. apply in_sunions. exists (symbols e). split; auto. now apply in_map.
    - inv_bind H'. apply EventAnd_shape in H'. subst t'. cbn [regular good] in *. apply mapM_Forall2 in E. destruct G as (_ & G).
      apply All_intro. intros t' Ht. destruct (Forall2_in_r _ _ _ _ _ _ E Ht) as (e & He & Se). rewrite Forall_forall in H. assert (Q := All_In _ _ _ e G He).
      assert (Q' := All_In _ _ _ e Rg He). cbv beta in Q, Q'. apply (H e He t'); try tauto.
      intros x Hx. apply Nt. cbn [symbols]. apply in_sunions. exists (symbols e). split; auto. now apply in_map.
  Qed.
  Lemma substitute_regular : forall env w, consistent env w -> env_good env ->
    (forall y u, lookup y env = Some u -> regular true u w /\ forall z, In z (symbols u) -> numeric w z) ->
    forall n t t' g, good t -> (forall x, In x (symbols t) -> numeric w x) -> regular g t w -> substitute io po fuel n env t = Ok t' -> regular g t' w.
  Proof.
    intros env w C Ge Hd. induction n; intros t t' g G Nt Rg H; cbn [substitute] in H; destruct (expr_in_env t env); try discriminate; try (injection H as <-; auto).
    inv_bind H. destruct (subs_good io po fuel env Ge _ _ G E) as (A & _). apply (IHn r); auto.
    - intros x Hx. destruct (subs_symbols io po fuel env t r E x Hx) as [(K & _)|(y & u & _ & _ & L & K)]; [auto|]. now apply (Hd y u).
    - now apply (subs_regular env w C Hd t).
  Qed.
  (** substitution keeps the kinds of literals *)
  Definition num_lit (e : tr) : Prop := match e with EBasic KNom _ _ => False | _ => True end.
  Definition num_event (e : tr) : Prop := Forall num_lit (lits e).
  Lemma subs_num_event : forall env (t t' : tr), is_event t = true -> good t -> subs io po fuel env t = Ok t' -> num_event t -> num_event t'.
  Proof.
    intros env. induction t using tr_ind'; intros t' Ie G H' Nt; try discriminate Ie; cbn [subs] in H';
      match type of H' with (if negb ?b then _ else _) = _ => destruct b; cbn [negb] in H'; [|injection H' as <-; exact Nt] end; inv_bind H'.
    - injection H' as <-. inversion Nt; subst. constructor; auto.
    - apply EventOr_shape in H'. subst t'. apply mapM_Forall2 in E. unfold num_event in *. cbn [lits] in *. rewrite lits_list, Forall_forall in *. destruct G as (_ & G).
      intros t' Ht. destruct (Forall2_in_r _ _ _ _ _ _ E Ht) as (e & He & Se). assert (Q := All_In _ _ _ e G He). cbv beta in Q. apply (H e He); try tauto. apply Nt; auto.
    - apply EventAnd_shape in H'. subst t'. apply mapM_Forall2 in E. unfold num_event in *. cbn [lits] in *. rewrite lits_list, Forall_forall in *. destruct G as (_ & G).
      intros t' Ht. destruct (Forall2_in_r _ _ _ _ _ _ E Ht) as (e & He & Se). assert (Q := All_In _ _ _ e G He). cbv beta in Q. apply (H e He); try tauto. apply Nt; auto.
  Qed.
  Lemma substitute_num_event : forall env, env_good env -> forall n t t', is_event t = true -> good t -> substitute io po fuel n env t = Ok t' -> num_event t -> num_event t'.
  Proof.
    intros env Ge. induction n; intros t t' Ie G H Nt; cbn [substitute] in H; destruct (expr_in_env t env); try discriminate; try (injection H as <-; auto).
    inv_bind H. destruct (subs_good io po fuel env Ge _ _ G E) as (A & _ & B). apply (IHn r); auto. now apply (subs_num_event env t).
  Qed.
End Num.

Section Solve.
  Context {N : numsys} (io : iterorder N) (po : polyoracle N) (fuel : nat).
  Notation tr := (tr N).
  Lemma dispatch_real : forall (rg : pset N) fin int, wf rg -> real_set rg ->
    (forall vs r, wf_b (BReal vs) -> fin vs = Ok r -> wf r /\ real_set r) ->
    (forall i r, wf_iv i -> int i = Ok r -> wf r /\ real_set r) ->
    forall n s r, wf s -> dispatch io n (Ok rg) fin int s = Ok r -> wf r /\ real_set r.
  Proof.
    intros rg fin int Wr Rr Hf Hi. induction n as [|n IH]; intros s r Ws H; [discriminate|]. cbn [dispatch] in H. cbn [bind] in H. inv_bind H.
    destruct (pand_f io _ _ _ Wr Ws E) as (W0 & _ & R0 & _). specialize (R0 (or_introl Rr)). destruct r0 as [|[vs b|vs|i]|u].
    - injection H as <-. split; exact Logic.I.
    - contradiction.
    - now apply (Hf vs).
    - now apply (Hi i).
    - inv_bind H. apply mapM_Forall2 in E0. assert (F : Forall (fun x => wf x /\ real_set x) r0).
      { apply Forall_forall. intros x Hx. destruct (Forall2_in_r _ _ _ _ _ _ E0 Hx) as (y & Hy & Ey). apply in_map_iff in Hy. destruct Hy as (b & <- & Hb).
        apply (IH (PB b) x); auto. simpl in W0. destruct W0 as (W0 & _). rewrite Forall_forall in W0. now apply W0. }
      apply make_union_f in H; [|apply (Forall_impl _ (fun x K => proj1 K) F)]. split; [apply H|]. apply H. apply (Forall_impl _ (fun x K => proj2 K) F).
  Qed.
  Lemma make_intersection_real : forall l r, Forall (fun x => wf x /\ real_set x) l -> make_intersection io l = Ok r -> wf r /\ real_set (N:=N) r.
  Proof.
    intros [|s l] r W H; [discriminate|]. unfold make_intersection in H. simpl in H. inversion W as [|? ? (Ws & Rs) Wl]; subst. clear W.
    revert s r Ws Rs H. induction Wl as [|t l (Wt & Rt) Wl IH]; simpl; intros s r Ws Rs H.
    - injection H as <-. auto.
    - inv_bind H. apply pand_f in E; auto. destruct E as (A & _ & B & _). apply (IH r0); auto.
  Qed.
  (** solving an event on numbers gives a set of numbers *)
  Lemma invert_real : forall X (e : tr), gev e -> only X e -> num_event e -> forall s r, wf s -> invert io po fuel e s = Ok r -> wf r /\ real_set r.
  Proof.
    intros X. induction e using tr_ind'; intros (G & Ie) On Ne s r Ws Hr; try discriminate Ie.
    - destruct (invert_ok io po fuel X _ G On) as (A & _). inversion Ne as [|? ? K _]; subst.
      destruct (A ltac:(destruct k; [exact Logic.I|exact Logic.I|contradiction]) true s r) as (B & C & _); auto. discriminate.
    - cbn [invert range] in Hr. destruct (bits_f (N:=N)) as (Wb & Rb & _). revert Hr. apply dispatch_real; auto; [|discriminate].
      clear s r Ws. intros vs r Wv Hr. inv_bind Hr. apply mapM_Forall2 in E. cbn [good] in G. destruct G as (_ & G). unfold num_event in Ne. cbn [lits] in Ne. rewrite lits_list in Ne.
      assert (F : Forall (fun x => wf x /\ real_set x) r0).
      { apply Forall_forall. intros x Hx. destruct (Forall2_in_r _ _ _ _ _ _ E Hx) as (e & He & Ex). assert (Q := All_In _ _ _ e G He). cbv beta in Q.
        rewrite Forall_forall in H. apply (H e He) with (s := PB (BReal vs)); auto.
        - intros x' Hx'. apply On. cbn [symbols]. apply in_sunions. exists (symbols e). split; auto. now apply in_map.
        - exact (proj1 (Forall_forall _ _) Ne e He). }
      apply make_union_f in Hr; [|apply (Forall_impl _ (fun x K => proj1 K) F)]. split; [apply Hr|]. apply Hr. apply (Forall_impl _ (fun x K => proj2 K) F).
    - cbn [invert range] in Hr. destruct (bits_f (N:=N)) as (Wb & Rb & _). revert Hr. apply dispatch_real; auto; [|discriminate].
      clear s r Ws. intros vs r Wv Hr. inv_bind Hr. apply mapM_Forall2 in E. cbn [good] in G. destruct G as (_ & G). unfold num_event in Ne. cbn [lits] in Ne. rewrite lits_list in Ne.
      apply (make_intersection_real r0); auto. apply Forall_forall. intros x Hx. destruct (Forall2_in_r _ _ _ _ _ _ E Hx) as (e & He & Ex). assert (Q := All_In _ _ _ e G He). cbv beta in Q.
      rewrite Forall_forall in H. apply (H e He) with (s := PB (BReal vs)); auto.
      + intros x' Hx'. apply On. cbn [symbols]. apply in_sunions. exists (symbols e). split; auto. now apply in_map.
      + exact (proj1 (Forall_forall _ _) Ne e He).
  Qed.
  Lemma solve_real : forall X e r, gev e -> only X e -> num_event e -> solve io po fuel e = Ok r -> real_set r.
  Proof.
    intros X e r G On Ne H. unfold solve in H. destruct (id_values e) as [v|] eqn:Ev.
    - injection H as <-. destruct e; try discriminate Ev. cbn [id_values] in Ev. destruct e; try discriminate Ev. injection Ev as <-.
      inversion Ne as [|? ? K _]; subst. apply gev_wf in G. destruct k; [| |contradiction]; destruct G as (_ & _ & G & _).
      + destruct G as (i & ->). exact Logic.I.
      + destruct G as [-> |(vs & ->)]; exact Logic.I.
    - destruct (Nat.ltb _ _); [discriminate|]. destruct (invert_real X e G On Ne (PB (BReal [bit true])) r) as (_ & R); auto.
      apply (BReal1 (N:=N)).
  Qed.
End Solve.

(** ** The probability of a set of values *)
Lemma sumR_add : forall A (f g : A -> R) l, sumR (map (fun a => f a + g a) l) = sumR (map f l) + sumR (map g l).
Proof. induction l; simpl; [ring|]. unfold sumR in *. rewrite IHl. ring. Qed.
Section Solved.
  Context {N : numsys} {S : logsys} {D : distsys N S} (io : iterorder N).
  Context (dlaw : dist D -> (fval -> R) -> R).
  Notation spe := (spe D).
  Notation wf_leaf := (wf_leaf dlaw).
  Notation leaf_law := (leaf_den_law dlaw).

  Lemma lookup_sum : forall (ws : list (string * Q)) x q, NoDup (map fst ws) -> lookup x ws = Some q ->
    sumR (map (fun p => ind (fun k => k = x) (fst p) * Q2R (snd p)) ws) = Q2R q.
  Proof.
    induction ws as [|(k, q') ws IH]; intros x q Nd L; [discriminate|]. cbn [map fst snd sumR fold_right lookup] in *. fold (sumR (map (fun p => ind (fun k => k = x) (fst p) * Q2R (snd p)) ws)).
    inversion Nd as [|? ? Nk Nd']; subst. destruct (String.eqb_spec x k) as [<-|Ne].
    - injection L as ->. rewrite (ind_true _ (fun k => k = x)) by auto. rewrite sumR_zero; [ring|].
      intros p Hp. rewrite ind_false; [ring|]. intros E. apply Nk. rewrite <- E. now apply in_map.
    - rewrite (ind_false _ (fun k => k = x)) by congruence. rewrite (IH x q) by auto. ring.
  Qed.
  Lemma nom_prob_sum : forall (ws : list (string * Q)) vs p, NoDup (map fst ws) -> NoDup vs -> nom_prob ws vs = Ok p ->
    Q2R p = sumR (map (fun k => ind (fun x => In x vs) (fst k) * Q2R (snd k)) ws).
  Proof.
    intros ws vs p Nd Nv H. unfold nom_prob in H. inv_bind H. injection H as <-. apply mapM_Forall2 in E. rewrite Qsum_R.
    induction E as [|x q vs qs Hx F IH].
    - cbn [map sumR fold_right]. rewrite sumR_zero; auto. intros k _. rewrite ind_false; [ring|]. intros [].
    - inversion Nv as [|? ? Nx Nv']; subst. cbn [map sumR fold_right]. fold (sumR (map Q2R qs)). rewrite (IH Nv'). destruct (lookup x ws) as [q'|] eqn:L; [|discriminate]. injection Hx as ->.
      rewrite <- (lookup_sum ws x q Nd L). rewrite <- sumR_add. apply sumR_ext. intros k _.
      rewrite <- Rmult_plus_distr_r. f_equal. rewrite <- (ind_or_disj _ (fun k => k = x) (fun k => In k vs)).
      + apply ind_eq. simpl. intuition.
      + intros (-> & K). auto.
  Qed.
  (** the values that a nominal leaf is asked about are among its strings *)
  Lemma nominal_values : forall (ws : list (string * Q)) (v s r : pset N), FiniteNominal (map fst ws) None = Ok s -> wf v -> pand io s v = Ok r ->
    wf r /\ (forall u, fm u r -> exists k, u = FStr k /\ In k (map fst ws)) /\
    (forall k, In k (map fst ws) -> (fm (FStr k) r <-> fm (FStr k) v)) /\ peqb r Strings = false /\
    (forall vs b, r = PB (BNom vs b) -> truthy b = false /\ NoDup vs /\ (forall k, fm (FStr k) r <-> In k vs) /\ incl vs (map fst ws)).
  Proof.
    intros ws v s r Hs Wv H. pose proof (FiniteNominal_wf _ _ _ Hs) as Ws. unfold FiniteNominal in Hs. inv_bind Hs. injection Hs as <-.
    destruct (pand_f io _ _ _ Ws Wv H) as (Wr & Fr & _ & _).
    assert (Sp : forall u, fm (N:=N) u (PB (BNom (dedup String.eqb (map fst ws)) None)) <-> exists k, u = FStr k /\ In k (map fst ws)).
    { intros [x|k]; unfold fm; cbn [inj mem bmem truthy].
      - split; [tauto|intros (k & K & _); discriminate].
      - rewrite dedup_string_In. split; [intros K; exists k; auto|intros (k' & K & H'); now injection K as ->]. }
    assert (In1 : forall u, fm u r -> exists k, u = FStr k /\ In k (map fst ws)) by (intros u Hu; apply Sp; now apply Fr).
    assert (Fresh : exists f, ~ fm (FStr f) r).
    { destruct (string_fresh (map fst ws)) as (f & Hf). exists f. intros K. destruct (In1 _ K) as (k & E' & Hk). injection E' as ->. auto. }
    refine (conj Wr (conj In1 (conj _ (conj _ _)))).
    - intros k Hk. rewrite Fr, Sp. split; [tauto|]. intros K. split; eauto.
    - destruct (peqb r Strings) eqn:Eq; auto. destruct Fresh as (f & Hf). exfalso. apply Hf. apply (peqb_mem _ _ Eq). simpl. auto.
    - intros vs b ->. assert (Tb : truthy b = false).
      { destruct (truthy b) eqn:Tb; auto. exfalso. destruct (string_fresh (vs ++ map fst ws)) as (f & Hf). rewrite in_app_iff in Hf.
        destruct (In1 (FStr f)) as (k & E' & Hk); [|injection E' as ->; tauto]. unfold fm. cbn [inj mem bmem]. rewrite Tb. tauto. }
      assert (Fm : forall k, fm (N:=N) (FStr k) (PB (BNom vs b)) <-> In k vs) by (intro k; unfold fm; cbn [inj mem bmem]; now rewrite Tb).
      refine (conj Tb (conj _ (conj Fm _))); [apply Wr|]. intros k Hk. apply Fm in Hk. destruct (In1 _ Hk) as (k' & E' & H'). now injection E' as ->.
  Qed.
  Lemma Q2R_pos : forall p, 0 <= Q2R p -> Qeq_bool p 0 = false -> (0 < p)%Q.
  Proof.
    intros p P E. destruct (Qlt_le_dec 0 p) as [K|K]; auto. exfalso. apply Qle_Rle in K. rewrite Q2R_0 in K. assert (K2 : Q2R p = Q2R 0) by (rewrite Q2R_0; lra).
    apply eqR_Qeq in K2. apply Qeq_bool_iff in K2. congruence.
  Qed.
  Lemma nom_law_in : forall (ws : list (string * Q)) vs p, wf_leaf (NominalLeaf "" ws) -> NoDup vs -> nom_prob ws vs = Ok p ->
    Q2R p = nom_law ws (ind (fun u => exists k, u = FStr k /\ In k vs)).
  Proof.
    intros ws vs p W Nv H. destruct W as (Nd & _). rewrite (nom_prob_sum _ _ _ Nd Nv H). unfold nom_law. apply sumR_ext. intros k _. f_equal. apply ind_eq.
    split; [intros K; eauto|intros (k' & K & K'); now injection K as ->].
  Qed.
  Lemma nominal_solved : forall x ws (v : pset N) p, wf_leaf (NominalLeaf x ws) -> wf v -> leaf_solved_logprob io (D:=D) (NominalLeaf x ws) v = Ok p ->
    toP p = nom_law ws (ind (fun u => fm u v)).
  Proof.
    intros x ws v p W Wv H. pose proof W as (Nd & P & T). pose proof (nom_law_law ws P T) as L. cbn [leaf_solved_logprob] in H. inv_bind H. inv_bind H.
    destruct (nominal_values _ _ _ _ E Wv E0) as (Wr & In1 & Vv & Ns & Vb).
    assert (Sum : nom_law ws (ind (fun u => fm u v)) = nom_law ws (ind (fun u => fm u r0))).
    { unfold nom_law. apply sumR_ext. intros k Hk. f_equal. apply ind_eq. symmetry. apply Vv. now apply in_map. }
    rewrite Sum. rewrite Ns in H. destruct r0 as [|[vs b|vs|i]|u]; cbn [is_empty] in H; try discriminate.
    - injection H as <-. rewrite lninf_ok. symmetry. rewrite (law_ext (I:=nom_law ws) _ (fun _ => 0)); [apply (law_const L)|]. intro u. apply ind_false. auto.
    - inv_bind H. destruct (Vb vs b eq_refl) as (Tb & Nv & Fm & Iv). pose proof (nom_law_in ws vs r0 W Nv E1) as Q.
      rewrite (ind_iff _ (fun u => fm u (PB (BNom vs b))) (fun u => exists k, u = FStr k /\ In k vs)).
      + rewrite <- Q. assert (Q0 : 0 <= Q2R r0) by (rewrite Q; apply (law_01 L)). destruct (Qeq_bool r0 0) eqn:Ez; injection H as <-.
        * rewrite lninf_ok. apply Qeq_bool_iff in Ez. rewrite (Qeq_eqR _ _ Ez). symmetry. apply Q2R_0.
        * apply lofQ_ok. now apply Q2R_pos.
      + intros [y|k]; [|rewrite Fm; split; [eauto|intros (k' & K & K'); now injection K as ->]]. split; [|intros (k & K & _); discriminate].
        intros K. destruct (In1 _ K) as (k & K' & _). discriminate.
  Qed.
  (** the probability that a leaf computes for a set of values of its base variable *)
  Definition atomic (s : spe) : Prop := match s with AtomicLeaf _ _ _ => True | _ => False end.
  Lemma solved_logprob_ok : forall s (v : pset N) p, wf_leaf s -> wf v -> (atomic s -> real_set v) -> leaf_solved_logprob io s v = Ok p ->
    toP p = leaf_law s (ind (fun u => fm u v)).
  Proof.
    intros s v p W Wv Rv H. destruct s as [disc x d supp cond env|x a env|x ws|l|l]; try contradiction.
    - destruct W as (W1 & W2 & W3 & W4 & _). pose proof H as H'. cbn [leaf_solved_logprob] in H'. inv_bind H'.
      destruct (real_solved dlaw disc d supp cond W1 (disc_int _ _ _ _ _ _ _ W2) W3 W4 (disc_pos _ _ _ _ _ _ _ W2) io v r x env Wv E) as (_ & _ & _ & _ & q & Eq & Hq). rewrite H in Eq. injection Eq as <-. exact Hq.
    - cbn [leaf_solved_logprob] in H. inv_bind H. injection H as <-. pose proof (contains_ok io (VNum (Fin a)) v r Wv (Rv Logic.I) E) as C. cbn [leaf_den_law]. cbn [rv eR] in C. fold (fm (FNum (toR a)) v) in C.
      destruct r.
      + rewrite lzero_ok, ind_true; auto. now apply C.
      + rewrite lninf_ok, ind_false; auto. intros K. apply C in K. discriminate.
    - now apply (nominal_solved x).
  Qed.
End Solved.

Section Leaf.
  Context {N : numsys} {S : logsys} {D : distsys N S} (io : iterorder N) (po : polyoracle N) (fuel : nat).
  Context (dlaw : dist D -> (fval -> R) -> R).
  Notation spe := (spe D).
  Notation tr := (tr N).
  Notation wf_leaf := (wf_leaf dlaw).
  Notation leaf_law := (leaf_den_law dlaw).
  Notation surely := (surely dlaw).

  Lemma derive_base : forall X env, env_built (N:=N) X env -> forall a, derive env a X = a X.
  Proof.
    intros X env B. induction B as [|env y t B IH Fr Sy]; intros a.
    - cbn [derive teval value_or]. unfold upd. now rewrite String.eqb_refl.
    - rewrite derive_app. cbn [derive]. unfold upd at 1. destruct (String.eqb_spec y X) as [->|]; [|apply IH].
      exfalso. apply Fr. now apply (built_facts X env B).
  Qed.
  Lemma place_base : forall X env w v, env_built (N:=N) X env -> place X env w v X = v.
  Proof. intros. unfold place. rewrite (derive_base X) by auto. unfold upd. now rewrite String.eqb_refl. Qed.
  (** the base variable of a leaf *)
  Definition leaf_var (s : spe) : string := fst (leaf_env s).
  Lemma leaf_place_base : forall s w v, wf_leaf s -> leaf_place s w v (leaf_var s) = v.
  Proof.
    intros [disc x d supp cond env|x a env|x ws|l|l] w v W; try contradiction; unfold leaf_var; cbn [leaf_place leaf_env fst].
    - apply place_base. apply W.
    - apply place_base. apply W.
    - unfold upd. now rewrite String.eqb_refl.
  Qed.
  (** almost sure facts about a leaf *)
  Lemma leaf_surely : forall s P w, wf_leaf s -> surely s P -> leaf_law s (ind (fun v => ~ P (leaf_place s w v))) = 0.
  Proof.
    intros s P w W H. specialize (H w). rewrite den_leaf in H by (now apply (wf_leaf_leaf dlaw)). exact H.
  Qed.
  Definition numeric_leaf (s : spe) : Prop := match s with NominalLeaf _ _ => False | _ => True end.
  Lemma leaf_numeric : forall s, wf_leaf s -> numeric_leaf s -> leaf_law s (ind (fun v => ~ is_num v)) = 0.
  Proof.
    intros [disc x d supp cond env|x a env|x ws|l|l] W K; try contradiction; cbn [leaf_den_law].
    - destruct W as (W1 & W2 & W3 & W4 & _). apply (I_null dlaw disc d supp cond W3 W4). apply (law_full (d_law _ _ _ W3)). apply (d_num _ _ _ W3).
    - apply ind_false. intros K'. apply K'. exists (toR a). auto.
  Qed.
  Lemma leaf_fine : forall s w, wf_leaf s -> leaf_law s (ind (fun v => ~ env_fine (snd (leaf_env s)) (leaf_place s w v))) = 0.
  Proof.
    intros s w W. pose proof (leaf_law_law dlaw s W) as L.
    destruct s as [disc x d supp cond env|x a env|x ws|l|l]; try contradiction; try (apply leaf_surely; auto; apply W).
    cbn [leaf_env snd]. rewrite (law_ext (I:=leaf_law (NominalLeaf x ws)) _ (fun _ => 0)); [apply (law_const L)|]. intro v. apply ind_false. intros K. apply K. split.
    - intros y t. cbn [lookup base_env]. destruct (String.eqb_spec y x) as [->|]; [|discriminate]. intros H. injection H as <-. reflexivity.
    - intros y t. cbn [lookup base_env]. destruct (String.eqb_spec y x) as [->|]; [|discriminate]. intros H. injection H as <-. exact Logic.I.
  Qed.
  Lemma leaf_env_ok : forall s, wf_leaf s -> env_ok (leaf_var s) (snd (leaf_env s)).
  Proof.
    intros [disc x d supp cond env|x a env|x ws|l|l] W; try contradiction; try apply W. split.
    - apply built_base.
    - intros y t. cbn [lookup leaf_env snd base_env]. destruct (String.eqb_spec y x) as [->|]; [|discriminate]. intros H. injection H as <-. split; exact Logic.I.
  Qed.
  Lemma leaf_env_vars : forall s x, wf_leaf s -> (vars s x <-> In x (map fst (snd (leaf_env s)))).
  Proof. intros [disc y d supp cond env|y a env|y ws|l|l] x W; try contradiction; cbn; tauto. Qed.

  Lemma base_in_env : forall x (t : tr), expr_in_env t (base_env x) = false.
  Proof.
    intros x t. unfold expr_in_env. induction (symbols t) as [|y l IH]; auto. cbn [existsb]. rewrite IH. unfold moved. cbn [lookup base_env].
    destruct (String.eqb_spec y x) as [->|]; auto. cbn [teqb]. now rewrite String.eqb_refl.
  Qed.
  Lemma same_symbols_only : forall (e : tr) x, same_symbols (symbols e) [x] = true -> only x e.
  Proof. intros e x H y Hy. apply (set_eqb_string _ _ H) in Hy. destruct Hy as [<-|[]]. auto. Qed.

  (** What leaf_event gives: an event on the base variable, and at almost all values of the base
      variable it is regular and means the same. *)
  Lemma leaf_event_ok : forall s e e', wf_leaf s -> gev e -> surely s (regular true e) -> (atomic s -> num_event e) ->
    leaf_event io po fuel (leaf_var s) (snd (leaf_env s)) e = Ok e' ->
    gev e' /\ only (leaf_var s) e' /\ (atomic s -> num_event e') /\
    (forall x, In x (symbols e) -> vars s x) /\
    forall w, leaf_law s (ind (fun v => ~ (regular true e' (leaf_place s w v) /\ (holds e' (leaf_place s w v) <-> holds e (leaf_place s w v))))) = 0.
  Proof.
    intros s e e' W G Rg Na H. pose proof (leaf_law_law dlaw s W) as L. unfold leaf_event in H. inv_bind H. inv_bind H. inv_bind H. injection H as <-.
    assert (In1 : forall x, In x (symbols e) -> In x (map fst (snd (leaf_env s)))).
    { intros x Hx. unfold passert in E0. destruct (forallb _ (symbols e)) eqn:Fb; [|discriminate]. rewrite forallb_forall in Fb. apply Fb in Hx. now apply inb_string in Hx. }
    assert (On : only (leaf_var s) r).
    { apply same_symbols_only. unfold passert in E1. destruct (same_symbols _ _) eqn:Fb; [|discriminate]. auto. }
    destruct (leaf_env_ok s W) as (Bu & Ge). destruct G as (G & Ie). destruct (substitute_good io po fuel _ Ge _ _ _ G E) as (Gr & _ & Ir).
    refine (conj (conj Gr (Ir Ie)) (conj On (conj _ (conj _ _)))).
    - intros At. apply (substitute_num_event io po fuel _ Ge _ _ _ Ie G E). auto.
    - intros x Hx. apply leaf_env_vars; auto.
    - intros w. destruct (dec (numeric_leaf s)) as [Nl|Nl].
      + apply (law_null_sub L (fun v => ~ env_fine (snd (leaf_env s)) (leaf_place s w v) \/ (~ regular true e (leaf_place s w v) \/ ~ is_num v))).
        { apply (law_null_or L); [now apply leaf_fine|]. apply (law_null_or L); [now apply (leaf_surely s (regular true e))|now apply leaf_numeric]. }
        intros v K. destruct (dec (env_fine (snd (leaf_env s)) (leaf_place s w v))) as [(C & Rf)|]; [|tauto].
        destruct (dec (regular true e (leaf_place s w v))) as [Re|]; [|tauto]. destruct (dec (is_num v)) as [Nv|]; [|tauto]. exfalso. apply K. clear K.
        assert (Nk : forall y, In y (map fst (snd (leaf_env s))) -> numeric (leaf_place s w v) y).
        { apply (num_keys (leaf_var s)); auto. destruct Nv as (x & ->). exists x. now apply leaf_place_base. }
        split.
        * refine (substitute_regular io po fuel _ _ C Ge _ _ _ _ _ G _ Re E); [|intros x Hx; auto]. intros y u Lu. split; [eauto|]. intros z Hz. apply Nk.
          now apply (built_symbols (leaf_var s) _ Bu y u).
        * unfold holds. now rewrite (substitute_teval io po fuel _ _ _ _ _ C E).
      + destruct s as [disc x d supp cond env|x a env|x ws|l|l]; try contradiction; try (exfalso; apply Nl; exact Logic.I).
        assert (r = e). { cbn [leaf_env snd] in E. cbn [substitute List.length base_env] in E. fold (base_env (N:=N) x) in E. rewrite base_in_env in E. congruence. } subst r.
        apply (law_null_sub L (fun v => ~ regular true e (leaf_place (D:=D) (NominalLeaf x ws) w v))); [now apply leaf_surely|]. tauto.
  Qed.
  (** what the code computes for a set of values and for an event *)
  Lemma leaf_as : forall s (e e' : tr) (v : pset N) w, wf_leaf s -> gev e' -> only (leaf_var s) e' -> solve io po fuel e' = Ok v ->
    leaf_law s (ind (fun u => ~ (regular true e' (leaf_place s w u) /\ (holds e' (leaf_place s w u) <-> holds e (leaf_place s w u))))) = 0 ->
    leaf_law s (ind (fun u => ~ (fm u v <-> holds e (leaf_place s w u)))) = 0.
  Proof.
    intros s e e' v w W (G & Ie) On Hs Z. pose proof (leaf_law_law dlaw s W) as L. destruct (solve_ok io po fuel _ _ _ true G On Ie Hs) as (_ & Sv).
    refine (law_null_sub L _ _ Z _). intros u K (Rg & He). apply K. rewrite <- He, <- (Sv _ Rg), leaf_place_base by auto. reflexivity.
  Qed.
  Theorem leaf_logprob_ok : forall s e p, wf_leaf s -> gev e -> surely s (regular true e) -> (atomic s -> num_event e) ->
    leaf_logprob io po fuel s e = Ok p -> forall w, toP p = den dlaw s (ind (holds e)) w.
  Proof.
    intros s e p W G Rg Na H w. pose proof (leaf_law_law dlaw s W) as L. unfold leaf_logprob in H. inv_bind H. inv_bind H.
    destruct (leaf_event_ok s e r W G Rg Na E) as (Gr & On & Nr & _ & Z). pose proof (leaf_as s e r r0 w W Gr On E0 (Z w)) as Z'.
    destruct (solve_ok io po fuel _ _ _ true (proj1 Gr) On (proj2 Gr) E0) as (Wv & _).
    rewrite den_leaf by (now apply (wf_leaf_leaf dlaw)). rewrite (solved_logprob_ok io dlaw s r0 p W Wv); auto.
    - refine (law_as L _ _ _ Z' _ _ _); auto with bnd.
      intros u Hu. apply ind_eq. destruct (dec (fm u r0 <-> holds e (leaf_place s w u))); tauto.
    - intros At. apply (solve_real io po fuel (leaf_var s) r); auto.
  Qed.
End Leaf.
