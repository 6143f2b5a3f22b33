(** When transform returns: the new name is new, and in every product one leaf has all the
    variables of the definition. *)
From Coq Require Import List Bool String Reals Lra Lia ZArith QArith PeanoNat.
From Verif Require Import Base Num Sets SetSpec SetIv SetProofs SetOr SetOps SetAlg SetBuilt
  Poly Trans TransSpec TransFacts PolyProofs InvProofs InvMain EvProofs ArithProofs
  Dnf DnfSpec DnfProofs DnfUnion Logs Spe SpeSpec SpeFacts SpeRect LeafProofs LeafEvents LeafCond SpeCons LeafGiven SpeEq SimplifyProofs CondTypes SpeOps OpsProofs PropSpe TransformProofs.
Import ListNotations.
Local Open Scope R_scope.

Section Total.
  Context {N : numsys} {S : logsys} {D : distsys N S}.
  Context (dlaw : dist D -> (fval -> R) -> R).
  Notation spe := (spe D).
  Notation tr := (tr N).
  Notation wf_spe := (wf_spe dlaw).
  Notation surely := (surely dlaw).
  Notation transformed := (transformed dlaw).

  (** a leaf that is not nominal has all variables of t; in a sum, in every summand *)
  Fixpoint hosts (s : spe) (t : tr) : Prop :=
    match s with
    | RealLeaf _ _ _ _ _ env | AtomicLeaf _ _ env => forall x, In x (symbols t) -> In x (map fst env)
    | NominalLeaf _ _ => False
    | SumSPE l => All (fun c => hosts (fst c) t) l
    | ProductSPE l => Any (fun c => hosts c t) l
    end.
  Lemma any_iff : forall (P : spe -> Prop) l, Any P l <-> exists c, In c l /\ P c.
  Proof.
    induction l as [|a l IH]; cbn [Any]; [split; [intros []|intros (c & [] & _)]|]. rewrite IH. split.
    - intros [H|(c & Hc & H)]; [exists a; split; auto; now left|exists c; split; auto; now right].
    - intros (c & [<-|Hc] & H); eauto.
  Qed.
  Lemma hosts_vars : forall s (t : tr), wf_spe s -> hosts s t -> forall x, In x (symbols t) -> vars s x.
  Proof.
    induction s using spe_ind'; intros t W H' y Hy; cbn [hosts vars] in *; auto; try contradiction.
    - pose proof (sum_nonempty dlaw l W) as Ne. destruct l as [|c l]; [tauto|]. destruct H' as (Hc & _). apply (sum_vars dlaw (c :: l) c W); [now left|]. apply (H c (or_introl eq_refl) t); auto. apply (sum_wf dlaw (c :: l)); auto. now left.
    - apply any_iff in H'. destruct H' as (c & Hc & K). apply pvars_in. exists c. split; auto. apply (H c Hc t); auto. now apply (prod_wf dlaw l).
  Qed.
  Lemma remake : forall disc x d supp cond (env env' : tenv (N:=N)), wf_leaf dlaw (RealLeaf disc x d supp cond env) -> mk_RealLeaf disc x d supp cond env' = Ok (RealLeaf disc x d supp cond env').
  Proof.
    intros disc x d supp cond env env' W. destruct W as (Wi & Wd & Wo & Wp & (Wb & _) & _). unfold mk_RealLeaf.
    assert (E1 : (if disc then do b <- int_or_isinf_neg (iv_a supp); do _ <- passert b; do c <- int_or_isinf_pos (iv_b supp); passert c else Ok tt) = Ok tt).
    { destruct disc; [|reflexivity]. destruct (Wd eq_refl) as (Ia & Ib & _). destruct Wi as (Lt & _). destruct (iv_a supp) as [|a|]; destruct (iv_b supp) as [|b|]; cbn in Lt; try contradiction; cbn [int_or_isinf_neg int_or_isinf_pos bind passert].
      - rewrite (proj2 (is_int_int b) Ib). reflexivity.
      - reflexivity.
      - rewrite (proj2 (is_int_int a) Ia), (proj2 (is_int_int b) Ib). reflexivity.
      - rewrite (proj2 (is_int_int a) Ia). reflexivity. }
    rewrite E1. cbn [bind]. destruct cond; [|reflexivity]. destruct (logZ_ok dlaw disc d supp Wi (disc_int _ _ _ _ _ _ _ Wd) Wo) as (z & -> & _). reflexivity.
  Qed.

  Lemma fop_swap : forall A (P : A -> A -> Prop) l1 c c' l2, ForallOrdPairs P (l1 ++ c :: l2) -> (forall d, In d l1 -> P d c') -> (forall d, In d l2 -> P c' d) -> ForallOrdPairs P (l1 ++ c' :: l2).
  Proof.
    induction l1 as [|a l1 IH]; intros c c' l2 H H1 H2; cbn [app] in *; inversion H as [|? ? Fa Fl]; subst; constructor; auto.
    - now apply Forall_forall.
    - rewrite Forall_forall in *. intros d Hd. apply in_app_iff in Hd. destruct Hd as [Hd|[<-|Hd]]; [apply Fa, in_app_iff; auto|apply H1; now left|apply Fa, in_app_iff; simpl; auto].
    - apply (IH c); auto. intros d Hd. apply H1. now right.
  Qed.
  Theorem transform_total : forall s y (t : tr), wf_spe s -> every heavy s -> good t -> realv t -> surely s (nice t) -> symbols t <> [] -> ~ vars s y -> hosts s t -> exists s', transform s y t = Ok s'.
  Proof.
    induction s using spe_ind'; intros y t W Hv Gt Rt Nt Ne Ny Ho; cbn [transform].
    - cbn [hosts vars] in *. rewrite new_env_total by auto. cbn [bind]. eexists. eapply remake. exact W.
    - cbn [hosts vars] in *. rewrite new_env_total by auto. cbn [bind]. eauto.
    - destruct Ho.
    - assert (K : forall c, In c l -> exists c', transform (fst c) y t = Ok c' /\ transformed (fst c) y t c').
      { intros c Hc. assert (Wc : wf_spe (fst c)) by now apply (sum_wf dlaw l). assert (Hvc : every heavy (fst c)) by now apply (every_sum heavy l).
        assert (Ntc : surely (fst c) (nice t)) by (apply (surely_child dlaw l); auto; exact (every_here _ _ Hv)).
        destruct (H c Hc y t) as (c' & Ec); auto; [intros V; apply Ny; now apply (sum_vars dlaw l c W Hc)|exact (SpeFacts.All_In _ _ _ _ Ho Hc)|]. exists c'. split; auto. apply (transform_ok dlaw); auto. }
      assert (M : exists cs, mapM (fun c => transform (fst c) y t) l = Ok cs /\ Forall2 (fun c c' => transformed (fst c) y t c') l cs).
      { clear -K. induction l as [|c l IH]; [exists []; split; [reflexivity|constructor]|]. destruct (K c (or_introl eq_refl)) as (c' & Ec & Tc). destruct IH as (cs & Es & F); [intros d Hd; apply K; now right|].
        exists (c' :: cs). cbn [mapM]. rewrite Ec. cbn [bind]. rewrite Es. split; [reflexivity|now constructor]. }
      destruct M as (cs & -> & F). cbn [bind]. apply (mk_Sum_total dlaw).
      + pose proof (sum_nonempty dlaw l W). inversion F; subst; [contradiction|discriminate].
      + rewrite map_length. symmetry. exact (Forall2_len _ _ _ _ _ F).
      + clear -F. induction F as [|c c' l cs Hc F IH]; constructor; auto. apply Hc.
      + rewrite map_map. apply W.
      + assert (V : forall c', In c' cs -> forall x, vars c' x <-> vars (SumSPE l) x \/ x = y).
        { intros c' Hc' x. destruct (ArithProofs.Forall2_in_r _ _ _ _ _ _ F Hc') as (c & Hc & (_ & _ & _ & Vc & _)). rewrite (Vc x). now rewrite (sum_vars dlaw l c W Hc). }
        intros c d x Hc Hd Vx. apply (V d Hd). now apply (V c Hc).
    - pose proof Ho as Ho'. cbn [hosts] in Ho'. apply any_iff in Ho'. destruct Ho' as (c & Hc & Hoc). destruct (in_split _ _ Hc) as (l1 & l2 & ->).
      assert (Wc : wf_spe c) by (apply (prod_wf dlaw (l1 ++ c :: l2)); auto).
      assert (Sc : forall x, In x (symbols t) -> vars c x) by (apply hosts_vars; auto).
      assert (Ntc : surely c (nice t)) by (now apply (surely_factor dlaw l1 c l2)).
      assert (Hvc : every heavy c) by (now apply (every_prod heavy (l1 ++ c :: l2))).
      destruct (H c Hc y t) as (c' & Ec); auto; [intros V; apply Ny; apply pvars_in; exists c; auto|]. pose proof (transform_ok dlaw c y t c' Wc Hvc Gt Rt Ntc Ec) as (Wc' & _ & _ & Vc' & _).
      pose proof W as (_ & Wl & Ap). apply all_app in Wl. destruct Wl as (W1 & _ & W2). pose proof (fop_mid _ _ _ _ _ Ap) as (A1 & A2 & _). rewrite Forall_forall in A1, A2.
      assert (Kc : known t (get_symbols c) = true) by (apply known_ok; intros x Hx; apply (get_symbols_vars dlaw); auto).
      assert (Ex : exists z, In z (symbols t)) by (destruct (symbols t) as [|z m]; [tauto|exists z; now left]). destruct Ex as (z & Hz).
      assert (K1 : forall d, In d l1 -> known t (get_symbols d) = false).
      { intros d Hd. destruct (known t (get_symbols d)) eqn:E; auto. exfalso. apply (A1 d Hd z); [|now apply Sc]. apply (get_symbols_vars dlaw). now apply (proj1 (known_ok t _) E). }
      assert (K2 : forall d, In d l2 -> known t (get_symbols d) = false).
      { intros d Hd. destruct (known t (get_symbols d)) eqn:E; auto. exfalso. apply (A2 d Hd z); [now apply Sc|]. apply (get_symbols_vars dlaw). now apply (proj1 (known_ok t _) E). }
      assert (Ka : known t (get_symbols (ProductSPE (l1 ++ c :: l2))) = true) by (apply known_ok; intros x Hx; apply (get_symbols_vars dlaw), pvars_in; exists c; auto).
      rewrite Ka. cbn [passert bind].
      assert (Fl : forall l, (forall d, In d l -> known t (get_symbols d) = false) -> filter (fun c => known t (get_symbols c)) l = ([] : list spe)).
      { induction l as [|d l IH]; intros K; auto. cbn [filter]. rewrite (K d (or_introl eq_refl)). apply IH. intros e He. apply K. now right. }
      rewrite filter_app. cbn [filter]. rewrite Kc, (Fl l1 K1), (Fl l2 K2). cbn [app List.length Nat.eqb passert bind].
      assert (G : go y t (l1 ++ c :: l2) = Ok (l1 ++ c' :: l2)).
      { clear -K1 Kc Ec. induction l1 as [|d l1 IH]; cbn [app go]; [rewrite Kc, Ec; reflexivity|]. rewrite (K1 d (or_introl eq_refl)). rewrite IH; [reflexivity|]. intros e He. apply K1. now right. }
      change (exists s', (do cs <- go y t (l1 ++ c :: l2); mk_Product cs) = Ok s'). rewrite G. cbn [bind]. apply (mk_Product_total dlaw).
      + destruct l1; discriminate.
      + apply Forall_app. split; [now apply All_Forall|]. constructor; auto. now apply All_Forall.
      + apply (fop_swap _ _ l1 c); auto; intros d Hd x V1 V2.
        * apply Vc' in V2. destruct V2 as [V2| ->]; [now apply (A1 d Hd x)|]. apply Ny. apply pvars_in. exists d. split; auto. apply in_app_iff. auto.
        * apply Vc' in V1. destruct V1 as [V1| ->]; [now apply (A2 d Hd x)|]. apply Ny. apply pvars_in. exists d. split; auto. apply in_app_iff. simpl. auto.
  Qed.
  (** the converse *)
  Lemma transform_hosts : forall s y (t : tr) s', transform s y t = Ok s' -> hosts s t.
  Proof.
    induction s using spe_ind'; intros y t s' T; cbn [transform hosts] in *.
    - inv_bind T. apply new_env_ok in E. apply E.
    - inv_bind T. apply new_env_ok in E. apply E.
    - discriminate.
    - inv_bind T. apply mapM_Forall2 in E. apply all_forall. intros c Hc. assert (K : exists c', transform (fst c) y t = Ok c') by (clear -E Hc; induction E as [|a b l r Eb E IH]; [destruct Hc|]; destruct Hc as [<-|Hc]; eauto). destruct K as (c' & Ec). exact (H c Hc y t c' Ec).
    - inv_bind T. inv_bind T. inv_bind T. change (go y t l = Ok r1) in E1. clear E. unfold passert in E0. destruct (Nat.eqb _ 1) eqn:One in E0; [|discriminate]. clear E0. apply Nat.eqb_eq in One.
      assert (Ex : existsb (fun c => known t (get_symbols c)) l = true).
      { destruct (filter (fun c => known t (get_symbols c)) l) as [|c m] eqn:Ef; [discriminate|]. apply existsb_exists. exists c. apply (proj1 (filter_In (fun c => known t (get_symbols c)) c l)). rewrite Ef. now left. }
      destruct (go_split y t l r1 E1 Ex) as (l1 & c & c' & l2 & -> & -> & _ & Tc & _). apply any_iff. exists c. assert (Hc : In c (l1 ++ c :: l2)) by (apply in_app_iff; simpl; auto). split; auto. exact (H c Hc y t c' Tc).
  Qed.
  (** one numeric variable *)
  Lemma hosts_one : forall nominal envof s x (t : tr), wf_spe s -> typed (D:=D) nominal envof s -> vars s x -> nominal x = false -> only x t -> hosts s t.
  Proof.
    intros nominal envof. induction s using spe_ind'; intros z t W T V Nz O; cbn [hosts vars] in *.
    - intros q Hq. now rewrite (O q Hq).
    - intros q Hq. now rewrite (O q Hq).
    - subst z. pose proof (every_here _ _ T) as P. cbn in P. congruence.
    - apply all_forall. intros c Hc. apply (H c Hc z); auto; [now apply (sum_wf dlaw l)|exact (every_sum _ l c T Hc)|]. now apply (sum_vars dlaw l c W Hc).
    - apply any_iff in V. destruct V as (c & Hc & V). apply any_iff. exists c. split; auto. apply (H c Hc z); auto; [now apply (prod_wf dlaw l)|exact (every_prod _ l c T Hc)].
  Qed.
End Total.
