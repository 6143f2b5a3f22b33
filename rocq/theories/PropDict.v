(** Property C39: the way to a dictionary and back. *)
From Coq Require Import List Bool String Reals Lra Lia ZArith QArith.
From Verif Require Import Base Num Sets SetSpec SetProofs Poly Trans TransSpec TransFacts PolyProofs Logs Spe SpeSpec SpeFacts SpeRect LeafProofs SpeOps OpsProofs Dict DictSpec.
Import ListNotations.
Local Open Scope R_scope.

Lemma mapM_same : forall A B C (f : B -> res C) (g : A -> B) (h : A -> C) l, (forall a, In a l -> f (g a) = Ok (h a)) -> mapM f (map g l) = Ok (map h l).
Proof.
  intros A B C f g h. induction l as [|a l IH]; intros H; [reflexivity|]. cbn [map mapM]. rewrite (H a) by now left. cbn [bind]. rewrite IH; [reflexivity|]. intros b Hb. apply H. now right.
Qed.

Section Properties.
  Context {N : numsys} (io : iterorder N) (po : polyoracle N) (fuel : nat).
  Context {S : logsys} {D : distsys N S} (dlaw : dist D -> (fval -> R) -> R).
  Context (reparse : ext (num N) -> res (ext (num N))) (redist : dist D -> res (dist D)) (tofloat : num N -> num N).
  Notation spe := (spe D).
  Notation eval := (eval io po fuel reparse).
  Notation exact := (fun c => reparse c = Ok c).
  Notation made := (made io po fuel exact).
  Notation spe_from_dict := (spe_from_dict io po fuel reparse redist tofloat).

  Lemma eval_num : forall c, reparse c = Ok c -> eval (RNum c) = Ok (RvNum c).
  Proof. intros c H. cbn [Dict.eval]. now rewrite H. Qed.
  Lemma eval_iv : forall i, made_interval exact i -> eval (repr_interval i) = Ok (RvSet (PB (BInt i))).
  Proof.
    intros i (Ha & Hb & (Lt & Wa & Wb)). unfold repr_interval. cbn -[construct]. rewrite Ha, Hb. cbn -[construct]. cbn. unfold Interval_. rewrite (proj2 (eltb_elt _ _) Lt). cbn.
    destruct i as [a b l r]; cbn in *.
    assert (E1 : ((if l then true else false) || is_ninf a)%bool = l) by (destruct l; [reflexivity|]; destruct a; cbn; auto; symmetry; auto).
    assert (E2 : ((if r then true else false) || is_pinf b)%bool = r) by (destruct r; [reflexivity|]; destruct b; cbn; auto; symmetry; auto).
    now rewrite E1, E2.
  Qed.
  Lemma eval_set : forall k v, made_set exact k v -> eval (repr_set v) = Ok (RvSet v) /\
    match k with KInt => forall u, EventInterval u v = Ok (EBasic KInt u v) | KReal => forall u, EventFiniteReal u v = Ok (EBasic KReal u v) | KNom => forall u, EventFiniteNominal u v = Ok (EBasic KNom u v) end.
  Proof.
    intros k v H. destruct v as [|b|l]; [| |destruct k; contradiction].
    - destruct k; [contradiction| |]; split; reflexivity.
    - destruct k, b as [vs f|vs|i]; try contradiction; cbn [made_set] in H.
      + split; [apply (eval_iv i H)|reflexivity].
      + destruct H as (He & Ne & Nd). split; [|reflexivity]. cbn [repr_set repr_basic Dict.eval]. rewrite (mapM_same _ _ _ eval _ RvNum).
        2:{ intros c Hc. apply eval_num. rewrite Forall_forall in He. auto. }
        cbn. rewrite (mapM_same _ _ _ as_num RvNum (fun c => c)) by reflexivity. rewrite map_id. cbn. unfold FiniteReal. destruct vs as [|c vs]; [tauto|]. cbn [is_nil negb passert bind]. now rewrite Nd.
      + destruct H as (Ne & Nd). split; [|reflexivity]. cbn [repr_set repr_basic]. destruct vs as [|c vs]; [tauto|]. remember (c :: vs) as ws. cbn [Dict.eval]. rewrite (mapM_same _ _ _ eval _ RvText) by reflexivity.
        assert (F : eval (repr_flag f) = Ok (RvFlag f)) by (destruct f; reflexivity). cbn -[construct repr_flag]. rewrite F. cbn. rewrite (mapM_same _ _ _ as_text RvText (fun c => c)) by reflexivity. rewrite map_id. cbn.
        unfold FiniteNominal. destruct ws; [discriminate|]. cbn [is_nil negb orb passert bind]. now rewrite dedup_string_id.
  Qed.
  Lemma all_in : forall A (P : A -> Prop) l, All P l -> forall a, In a l -> P a.
  Proof. intros A P. induction l as [|b l IH]; intros H a Ha; [contradiction|]. destruct H as (H1 & H2). destruct Ha as [<-|Ha]; auto. Qed.
  (** reading the text of a transform or an event gives it back *)
  Theorem C39_text : forall t, made t -> eval (repr_tr t) = Ok (RvTr t).
  Proof.
    induction t using tr_ind'; intros M; cbn [DictSpec.made] in M.
    - reflexivity.
    - cbn -[construct]. rewrite IHt by auto. reflexivity.
    - destruct M as (M & Hb & Pb). cbn -[construct]. rewrite IHt by auto. rewrite Hb. cbn. rewrite (proj2 (nltb_ok _ _ _)) by (rewrite nint_ok; exact Pb). reflexivity.
    - destruct M as (M & Hb & Pb). cbn -[construct]. rewrite IHt by auto. rewrite Hb. cbn. unfold Logarithm. rewrite (proj2 (nltb_ok _ _ _)) by (rewrite nint_ok; exact Pb). reflexivity.
    - cbn -[construct]. rewrite IHt by auto. reflexivity.
    - cbn -[construct]. rewrite IHt by auto. reflexivity.
    - destruct M as (M & Hc & Le). cbn -[construct]. rewrite IHt by auto. cbn -[construct]. rewrite (mapM_same _ _ _ eval _ (fun c => RvNum (Fin c))).
      2:{ intros c Hc'. apply eval_num. rewrite Forall_forall in Hc. exact (Hc c Hc'). }
      cbn. rewrite (mapM_same _ _ _ as_fin (fun c => RvNum (Fin c)) (fun c => c)) by reflexivity. rewrite map_id. cbn. unfold Poly_. destruct (Nat.ltb_spec 1 (List.length cs)); [reflexivity|lia].
    - destruct M as (M & P). rewrite Forall_forall in H. cbn -[construct].
      rewrite (mapM_same _ _ _ eval _ (fun p => RvTr (fst p))). 2:{ intros p Hp. apply H; auto. exact (proj1 (all_in _ _ _ M p Hp)). }
      rewrite (mapM_same _ _ _ eval _ (fun p => RvTr (snd p))). 2:{ intros p Hp. apply H; auto. exact (proj2 (all_in _ _ _ M p Hp)). }
      cbn. rewrite (mapM_same _ _ _ as_tr (fun p => RvTr (fst p)) fst) by reflexivity. rewrite (mapM_same _ _ _ as_tr (fun p => RvTr (snd p)) snd) by reflexivity. cbn. now rewrite P.
    - destruct M as (M & Hv). destruct (eval_set k v Hv) as (E & C). cbn -[construct repr_set]. rewrite IHt by auto. rewrite E. destruct k; cbn; now rewrite C.
    - destruct M as (Ne & M). rewrite Forall_forall in H. cbn -[construct]. rewrite (mapM_same _ _ _ eval _ RvTr). 2:{ intros e He. apply H; auto. exact (proj1 (all_in _ _ _ M e He)). }
      cbn. rewrite (mapM_same _ _ _ as_tr RvTr (fun e => e)) by reflexivity. rewrite map_id. cbn. unfold EventOr, compound_ok. replace (forallb is_event l) with true. 2:{ symmetry. apply forallb_forall. intros e He. exact (proj2 (all_in _ _ _ M e He)). }
      cbn [passert bind]. destruct l; [tauto|reflexivity].
    - destruct M as (Ne & M). rewrite Forall_forall in H. cbn -[construct]. rewrite (mapM_same _ _ _ eval _ RvTr). 2:{ intros e He. apply H; auto. exact (proj1 (all_in _ _ _ M e He)). }
      cbn. rewrite (mapM_same _ _ _ as_tr RvTr (fun e => e)) by reflexivity. rewrite map_id. cbn. unfold EventAnd, compound_ok. replace (forallb is_event l) with true. 2:{ symmetry. apply forallb_forall. intros e He. exact (proj2 (all_in _ _ _ M e He)). }
      cbn [passert bind]. destruct l; [tauto|reflexivity].
  Qed.
  Lemma env_built_one : forall x (env : tenv (N:=N)), env_built x env -> List.length env = 1%nat -> env = base_env x.
  Proof.
    intros x env H. destruct H as [|env y t H]; intros L; [reflexivity|]. rewrite app_length in L. cbn in L. destruct env; [inversion H; exfalso; destruct env; discriminate|cbn in L; lia].
  Qed.
  Lemma env_built_ne : forall x (env : tenv (N:=N)), env_built x env -> env <> [].
  Proof. intros x env H. destruct H; [discriminate|]. destruct env; discriminate. Qed.
  Lemma env_back : forall x env, env_built x env -> made_env io po fuel exact env -> exists e, env_from_dict io po fuel reparse (env_to_dict env) = Ok e /\ env_or x e = env.
  Proof.
    intros x env B M. unfold env_to_dict. destruct (Nat.eqb_spec (List.length env) 1) as [L|L].
    - exists None. split; [reflexivity|]. symmetry. now apply env_built_one.
    - exists (Some env). split.
      + cbn [env_from_dict]. rewrite (mapM_same _ _ _ _ _ (fun p => p)); [rewrite map_id; reflexivity|]. intros (y, t) Hp. cbn [fst snd]. unfold eval_tr. rewrite (C39_text (TId y)) by exact I. rewrite (C39_text t) by exact (M _ Hp). reflexivity.
      + cbn. destruct env; [|reflexivity]. exfalso. exact (env_built_ne _ _ B eq_refl).
  Qed.
  Lemma combine_split_map : forall A B (l : list (A * B)), combine (map fst l) (map snd l) = l.
  Proof. induction l as [|(a, b) l IH]; [reflexivity|]. cbn. now rewrite IH. Qed.

  Context (Hr : forall d, redist d = Ok d) (Hf : forall c, reparse (Fin c) = Ok (Fin c) -> tofloat c = c).
  (** The expression that is read back is the expression that was written.  Partial: the numbers in it
      must survive printing and reading, and events on no strings cannot be read; [C39_rational_refuted],
      [C39_support_refuted] and [C39_strings_refuted] show that the code does lose the others. *)
  Theorem C39_round_trip_partial : forall s : spe, wf_spe dlaw s -> made_spe io po fuel exact s -> spe_from_dict (spe_to_dict s) = Ok s.
  Proof.
    intros s. induction s as [disc x d supp cond env|x v env|x ws|l IH|l IH] using spe_ind'; intros W M.
    - destruct W as (Wi & Wd & Wo & Wp & (Wb & _) & _). destruct M as (Mi & Me). cbn [spe_to_dict Dict.spe_from_dict]. rewrite Hr. cbn [bind]. unfold eval_interval. rewrite (eval_iv supp Mi). cbn [bind].
      destruct (env_back x env Wb Me) as (e & -> & Ee). cbn [bind]. rewrite Ee. unfold mk_RealLeaf.
      assert (E1 : (if disc then do b <- int_or_isinf_neg (iv_a supp); do _ <- passert b; do c <- int_or_isinf_pos (iv_b supp); passert c else Ok tt) = Ok tt).
      { destruct disc; [|reflexivity]. destruct (Wd eq_refl) as (Ia & Ib & _). destruct Wi as (Lt & _). destruct (iv_a supp) as [|a|]; destruct (iv_b supp) as [|b|]; cbn in Lt; try contradiction; cbn [int_or_isinf_neg int_or_isinf_pos bind passert].
        - rewrite (proj2 (is_int_int b) Ib). reflexivity.
        - reflexivity.
        - rewrite (proj2 (is_int_int a) Ia), (proj2 (is_int_int b) Ib). reflexivity.
        - rewrite (proj2 (is_int_int a) Ia). reflexivity. }
      rewrite E1. cbn [bind]. destruct cond; [|reflexivity]. destruct (logZ_ok dlaw disc d supp Wi (disc_int _ _ _ _ _ _ _ Wd) Wo) as (z & -> & _). reflexivity.
    - destruct W as ((Wb & _) & _). destruct M as (Mv & Me). cbn [spe_to_dict Dict.spe_from_dict]. destruct (env_back x env Wb Me) as (e & -> & Ee). cbn [bind]. rewrite Ee, Hf by exact Mv. reflexivity.
    - destruct W as (Nd & _ & Tot). destruct M as (Ne & Rd). cbn [spe_to_dict Dict.spe_from_dict]. rewrite map_map. cbn [fst snd].
      replace (map (fun p => (fst p, Qred (Qnum (snd p) # Qden (snd p)))) ws) with ws. 2:{ clear -Rd. induction ws as [|(y, q) ws IH]; [reflexivity|]. inversion Rd; subst. cbn [map fst snd]. rewrite <- IH by auto. destruct q as [n d]. cbn in *. now rewrite H1. }
      unfold mk_NominalLeaf, FiniteNominal. destruct ws as [|p ws]; [tauto|]. cbn [map is_nil negb orb passert bind]. rewrite (proj2 (Qeq_bool_iff _ _)) by exact Tot. reflexivity.
    - destruct W as (Wl & Tot & V). cbn [spe_to_dict Dict.spe_from_dict]. rewrite (mapM_same _ _ _ _ _ fst). 2:{ intros c Hc. apply IH; auto. { exact (all_in _ _ _ Wl c Hc). } exact (proj1 (all_in _ _ _ M c Hc)). }
      cbn [bind]. destruct (mk_Sum_total dlaw (map fst l) (map snd l)) as (t & Et).
      + destruct l; [cbn in Tot; lra|discriminate].
      + now rewrite !map_length.
      + apply Forall_forall. intros c Hc. apply in_map_iff in Hc. destruct Hc as (p & <- & Hp). exact (all_in _ _ _ Wl p Hp).
      + rewrite map_map. exact Tot.
      + intros c d x Hc Hd. apply in_map_iff in Hc. destruct Hc as (p & <- & Hp). apply in_map_iff in Hd. destruct Hd as (q & <- & Hq). exact (V p q Hp Hq x).
      + rewrite Et. f_equal. unfold mk_Sum in Et. inv_bind Et. inv_bind Et. inv_bind Et. inv_bind Et. destruct r2; [|discriminate]. injection Et as <-. f_equal. rewrite combine_split_map.
        clear -M. induction l as [|(c, w) l IHl]; [reflexivity|]. destruct M as ((_ & M1) & M2). cbn [map List.concat fst snd]. rewrite IHl by exact M2. cbn [fst] in M1. destruct c; try contradiction; reflexivity.
    - destruct W as (Ne & Wl & Ap). cbn [spe_to_dict Dict.spe_from_dict]. rewrite (mapM_same _ _ _ _ _ (fun c => c)). 2:{ intros c Hc. apply IH; auto. { exact (all_in _ _ _ Wl c Hc). } exact (proj1 (all_in _ _ _ M c Hc)). }
      rewrite map_id. cbn [bind]. destruct (mk_Product_total dlaw l) as (t & Et); auto.
      + apply Forall_forall. intros c Hc. exact (all_in _ _ _ Wl c Hc).
      + rewrite Et. f_equal. unfold mk_Product in Et. inv_bind Et. destruct r; [|discriminate]. injection Et as <-. f_equal.
        clear -M. induction l as [|c l IHl]; [reflexivity|]. destruct M as ((_ & M1) & M2). cbn [map List.concat]. rewrite IHl by exact M2. destruct c; try contradiction; reflexivity.
  Qed.
End Properties.
