(** What the commands of a rendered expression do to a joint distribution. *)
From Coq Require Import List Bool String Reals Lra Lia ZArith QArith Qreals FunctionalExtensionality PropExtensionality Classical DecimalString DecimalNat.
From Verif Require Import Base Num Sets SetSpec Poly Trans TransSpec TransFacts Dnf DnfSpec Logs Spe SpeSpec SpeFacts SpeOps Prog ProgSpec ProgProofs SourceKernel
  NormSorts SpeEq CondTypes PropSpe SpeCons LeafEvents SampleSim Source Render RenderSpec.
Import ListNotations.
Local Open Scope R_scope.

(** ** Names *)
Lemma nat_text_inj : forall i j, nat_text i = nat_text j -> i = j.
Proof.
  intros i j H. unfold nat_text in H. apply (f_equal NilEmpty.uint_of_string) in H. rewrite !NilEmpty.usu in H. injection H as H. now apply Unsigned.to_uint_inj in H.
Qed.
Lemma branch_var_inj : forall i j, branch_var i = branch_var j -> i = j.
Proof. intros i j H. unfold branch_var in H. cbn [append] in H. repeat (injection H as H). now apply nat_text_inj in H. Qed.

Lemma map_fst_combine : forall A B (l : list A) (m : list B), List.length l = List.length m -> map fst (combine l m) = l.
Proof. induction l as [|a l IH]; intros [|b m] H; try discriminate H; [reflexivity|]. cbn. now rewrite IH by (cbn in H; lia). Qed.
Lemma map_snd_combine : forall A B (l : list A) (m : list B), List.length l = List.length m -> map snd (combine l m) = m.
Proof. induction l as [|a l IH]; intros [|b m] H; try discriminate H; [reflexivity|]. cbn. now rewrite IH by (cbn in H; lia). Qed.

Section Code.
  Context {N : numsys} {S : logsys} {D : distsys N S}.
  Context (dlaw : dist D -> (fval -> R) -> R) (nominal : string -> bool) (lexp : lg S -> Q).
  Notation spe := (spe D).
  Notation tr := (tr N).
  Notation command := (command (N:=N) (D:=D)).
  Notation den := (den dlaw).
  Notation den_prod := (den_prod den).
  Notation wf_spe := (wf_spe dlaw).
  Notation wf_leaf := (wf_leaf dlaw).
  Notation meaning := (meaning dlaw).
  Notation fits := (fits dlaw nominal).
  Notation kernel := ProgSpec.kernel.

  (** ** The commands of an expression *)
  Definition bv_event (v : string) (i : nat) : tr := EBasic KNom (TId v) (PB (BNom [nat_text i] None)).
  Definition supp_event (x : string) (supp : interval N) : tr := EBasic KInt (TId x) (PB (BInt supp)).
  Definition picked (v : string) (i : nat) (a : asg) : Prop := a v = FStr (nat_text i).
  Definition derives (p : string * tr) (c : command) : Prop := exists t', c = Transform (fst p) t' /\ same_tr (snd p) t'.

  (** [coded k s cs K bs]: cs are the commands for s, written when k branch variables exist; bs are the
      new ones; K is the distribution of s for given values of those. *)
  Inductive coded : nat -> spe -> list command -> kernel -> list (string * list (string * Q)) -> Prop :=
  | coded_nom : forall k x ws, wf_leaf (NominalLeaf x ws) -> nominal x = true -> plain_name x ->
      coded k (NominalLeaf x ws) [Sample x (choice ws)] (den (NominalLeaf x ws)) []
  | coded_real : forall k disc x d supp cond env supp0 ts, wf_leaf (RealLeaf disc x d supp cond env) -> (forall y, In y (map fst env) -> nominal y = false /\ plain_name y) ->
      wf_iv supp0 -> (disc = true -> disc_supp dlaw d supp0) -> dlaw d (ind (in_iv supp0)) = 1 -> Forall2 derives (tl env) ts ->
      coded k (RealLeaf disc x d supp cond env) (Sample x (real_dist disc d supp0) :: (if cond then [Condition (supp_event x supp)] else []) ++ ts) (den (RealLeaf disc x d supp cond env)) []
  | coded_prod : forall k l cs K bs, wf_spe (ProductSPE l) -> coded_all k l cs K bs -> coded k (ProductSPE l) cs K bs
  | coded_one : forall k c cs K bs, wf_spe (SumSPE [c]) -> coded k (fst c) cs K bs -> coded k (SumSPE [c]) cs K bs
  | coded_sum : forall k l cs K bs, wf_spe (SumSPE l) -> coded_cases (branch_var k) 0 (1 + k) l cs K bs ->
      coded k (SumSPE l) [IfElse cs] K ((branch_var k, branch_dist lexp (map snd l)) :: bs)
  with coded_all : nat -> list spe -> list command -> kernel -> list (string * list (string * Q)) -> Prop :=
  | all_nil : forall k, coded_all k [] [] (fun f => f) []
  | all_cons : forall k c l cs ds K L bs es, coded k c cs K bs -> coded_all (k + List.length bs) l ds L es -> coded_all k (c :: l) (cs ++ ds) (fun f => K (L f)) (bs ++ es)
  with coded_cases : string -> nat -> nat -> list (spe * lg S) -> list (option tr * command) -> kernel -> list (string * list (string * Q)) -> Prop :=
  | cases_nil : forall v i k, coded_cases v i k [] [] (fun _ _ => 0) []
  | cases_cons : forall v i k c l cs com ds K L bs es, coded k (fst c) cs K bs -> (com = Sequence cs \/ cs = [com]) -> coded_cases v (1 + i) (k + List.length bs) l ds L es ->
      coded_cases v i k (c :: l) ((Some (bv_event v i), com) :: ds) (fun f a => ind (picked v i) a * K f a + L f a) (bs ++ es).
  Scheme coded_min := Minimality for coded Sort Prop with coded_all_min := Minimality for coded_all Sort Prop with coded_cases_min := Minimality for coded_cases Sort Prop.
  Combined Scheme coded_mut from coded_min, coded_all_min, coded_cases_min.

  (** ** The branch variables *)
  Lemma seq_split : forall k n m, seq k (n + m) = seq k n ++ seq (k + n) m.
  Proof. intros. apply seq_app. Qed.
  Lemma coded_names :
    (forall k s cs K bs, coded k s cs K bs -> map fst bs = map branch_var (seq k (List.length bs))) /\
    (forall k l cs K bs, coded_all k l cs K bs -> map fst bs = map branch_var (seq k (List.length bs))) /\
    (forall v i k l cs K bs, coded_cases v i k l cs K bs -> map fst bs = map branch_var (seq k (List.length bs))).
  Proof.
    apply coded_mut; intros; auto.
    - cbn [map List.length seq fst]. f_equal. auto.
    - rewrite map_app, app_length, seq_split, map_app. congruence.
    - rewrite map_app, app_length, seq_split, map_app. congruence.
  Qed.

  (** ** The kernels are linear, and local *)
  (** x is neither drawn nor read *)
  Record tame (V : string -> Prop) (bs : list (string * list (string * Q))) (K : kernel) : Prop := {
    ta_plus : forall f g a, bnd f -> bnd g -> K (fun a => f a + g a) a = K f a + K g a;
    ta_scale : forall c f a, bnd f -> K (fun a => c * f a) a = c * K f a;
    ta_pos : forall f a, bnd f -> (forall a, 0 <= f a) -> 0 <= K f a;
    ta_bnd : forall f, bnd f -> bnd (K f);
    ta_reach : forall f g a, (forall b, same_out V a b -> f b = g b) -> K f a = K g a;
    ta_move : forall x v f a, ~ V x -> ~ In x (map fst bs) -> K f (upd a x v) = K (fun b => f (upd b x v)) a
  }.
  Lemma leaf_tame : forall s, is_leaf s = true -> wf_leaf s -> tame (vars s) [] (den s).
  Proof.
    intros s Il W. pose proof (proj2 (wf_leaf_spe dlaw s Il) W) as Ws. pose proof (den_kernel dlaw s Ws) as Kn. constructor.
    - intros f g a Hf Hg. now apply (law_plus (Kn a)).
    - intros c f a Hf. now apply (law_scale (Kn a)).
    - intros f a Hf H. now apply (law_pos (Kn a)).
    - intros f Hf. now apply kernel_bnd.
    - intros f g a H. now apply (den_reach dlaw s Ws).
    - intros x v f a Hx _. rewrite !den_leaf by auto. f_equal. extensionality u. f_equal. extensionality z. unfold upd at 2. destruct (String.eqb_spec x z) as [<-|Ne].
      + rewrite (leaf_place_out dlaw) by auto. unfold upd. now rewrite String.eqb_refl.
      + apply (leaf_place_agree dlaw); auto. destruct (dec (vars s z)); [auto|right]. unfold upd. destruct (String.eqb_spec x z); [contradiction|reflexivity].
  Qed.
  Lemma coded_tame :
    (forall k s cs K bs, coded k s cs K bs -> tame (vars s) bs K) /\
    (forall k l cs K bs, coded_all k l cs K bs -> tame (pvars l) bs K) /\
    (forall v i k l cs K bs, coded_cases v i k l cs K bs -> forall V : string -> Prop, (forall c, In c l -> forall x, vars (fst c) x -> V x) -> forall ws, tame V ((v, ws) :: bs) K).
  Proof.
    apply coded_mut; intros; auto.
    - apply leaf_tame; auto.
    - apply leaf_tame; auto.
    - apply H1. intros d Hd x Hx. apply (sum_vars dlaw l d H Hd). exact Hx.
    - constructor; auto. intros f g a H. apply H. intros x _. reflexivity.
    - destruct H0 as [P1 S1 O1 B1 R1 M1], H2 as [P2 S2 O2 B2 R2 M2]. constructor.
      + intros f g a Hf Hg. rewrite <- P1 by auto. apply R1. auto.
      + intros x f a Hf. rewrite <- S1 by auto. apply R1. auto.
      + intros f a Hf Hp. auto.
      + auto.
      + intros f g a E. apply R1. intros b Hb. apply R2. intros b' Hb'. apply E. intros x Hx. rewrite pvars_cons in Hx. rewrite Hb by tauto. apply Hb'. tauto.
      + intros x v f a Hx Hb. rewrite pvars_cons in Hx. rewrite map_app, in_app_iff in Hb. rewrite M1 by tauto. apply R1. intros b _. apply M2; tauto.
    - constructor; auto; intros; try lra. exists 0. intros. rewrite Rabs_R0. lra.
    - assert (T2 := H3 V ltac:(intros d Hd; apply H4; now right) ws). pose proof (H4 c (or_introl eq_refl)) as Hc. destruct H0 as [P1 S1 O1 B1 R1 M1], T2 as [P2 S2 O2 B2 R2 M2]. constructor.
      + intros f g a Hf Hg. rewrite P1, P2 by auto. ring.
      + intros x f a Hf. rewrite S1, S2 by auto. ring.
      + intros f a Hf Hp. pose proof (ind_01 _ (picked v i) a). apply Rplus_le_le_0_compat; auto. apply Rmult_le_pos; auto. lra.
      + intros f Hf. auto with bnd.
      + intros f g a E. rewrite (R1 f g), (R2 f g); auto. intros b Hb. apply E. intros x Hx. apply Hb. auto.
      + intros x u f a Hx Hb. cbn [map fst] in *. rewrite map_app in Hb. cbn [In] in Hb. rewrite in_app_iff in Hb. rewrite M1, M2 by (cbn [In]; intuition auto). f_equal. f_equal. apply ind_eq. unfold picked, upd. destruct (String.eqb_spec x v) as [->|]; [exfalso; tauto|reflexivity].
  Qed.

  (** ** Drawing the branch variables first *)
  Fixpoint mean (bs : list (string * list (string * Q))) (f : asg -> R) (a : asg) : R :=
    match bs with [] => f a | b :: bs => nom_law (snd b) (fun v => mean bs f (upd a (fst b) v)) end.
  Definition still (x : string) (f : asg -> R) : Prop := forall a v, f (upd a x v) = f a.
  Definition stills (bs : list (string * list (string * Q))) (f : asg -> R) : Prop := forall x, In x (map fst bs) -> still x f.

  Lemma coded_wf :
    (forall k s cs K bs, coded k s cs K bs -> wf_spe s) /\
    (forall k l cs K bs, coded_all k l cs K bs -> All wf_spe l) /\
    (forall v i k l cs K bs, coded_cases v i k l cs K bs -> True).
  Proof. apply coded_mut; intros; auto. - exact Logic.I. - split; auto. Qed.
  Lemma coded_plain :
    (forall k s cs K bs, coded k s cs K bs -> forall x, vars s x -> plain_name x) /\
    (forall k l cs K bs, coded_all k l cs K bs -> forall x, pvars l x -> plain_name x) /\
    (forall v i k l cs K bs, coded_cases v i k l cs K bs -> forall c, In c l -> forall x, vars (fst c) x -> plain_name x).
  Proof.
    apply coded_mut; intros; auto.
    - cbn in H2. now subst.
    - now apply H0.
    - destruct l as [|c l]; [destruct H2|]. apply (H1 c (or_introl eq_refl)). exact H2.
    - destruct H.
    - rewrite pvars_cons in H3. destruct H3; auto.
    - destruct H.
    - destruct H4 as [<-|H4]; eauto.
  Qed.
  Context (Hl : forall w, Q2R (lexp w) = toP w).
  Lemma dist_total : forall ws, sumR (map toP ws) = 1 -> forall v, wf_leaf (NominalLeaf v (branch_dist lexp ws)).
  Proof.
    intros ws T v. unfold branch_dist. assert (L : List.length (map nat_text (seq 0 (List.length ws))) = List.length (map lexp ws)) by (rewrite !map_length, seq_length; auto).
    split; [|split].
    - rewrite map_fst_combine by auto. apply FinFun.Injective_map_NoDup; [exact nat_text_inj|apply seq_NoDup].
    - apply Forall_forall. intros (n, q) H. apply in_combine_r in H. apply in_map_iff in H. destruct H as (w & <- & _). cbn. apply Rle_Qle. rewrite Hl, RMicromega.Q2R_0. apply toP_nonneg.
    - rewrite map_snd_combine by auto. apply eqR_Qeq. rewrite Qsum_R, map_map. rewrite (map_ext _ toP Hl), T. unfold Q2R. cbn. lra.
  Qed.
  Lemma coded_weights :
    (forall k s cs K bs, coded k s cs K bs -> Forall (fun b => wf_leaf (NominalLeaf (fst b) (snd b))) bs) /\
    (forall k l cs K bs, coded_all k l cs K bs -> Forall (fun b => wf_leaf (NominalLeaf (fst b) (snd b))) bs) /\
    (forall v i k l cs K bs, coded_cases v i k l cs K bs -> Forall (fun b => wf_leaf (NominalLeaf (fst b) (snd b))) bs).
  Proof.
    apply coded_mut; intros; auto.
    - constructor; auto. apply dist_total. destruct H as (_ & H & _). now rewrite map_map.
    - now apply Forall_app.
    - now apply Forall_app.
  Qed.

  Lemma mean_ext : forall bs f g a, (forall a, f a = g a) -> mean bs f a = mean bs g a.
  Proof. intros bs f g a H. f_equal. extensionality b. auto. Qed.
  Lemma mean_app : forall bs es f a, mean (bs ++ es) f a = mean bs (mean es f) a.
  Proof. induction bs as [|b bs IH]; intros es f a; [reflexivity|]. cbn [app mean]. f_equal. extensionality v. auto. Qed.
  Lemma nom_plus : forall ws f g, nom_law ws (fun v => f v + g v) = nom_law ws f + nom_law ws g.
  Proof. unfold nom_law. induction ws as [|p ws IH]; intros f g; cbn [map]; [cbn; ring|]. change (sumR (?a :: ?l)) with (a + sumR l). rewrite IH. ring. Qed.
  Lemma nom_scale : forall ws c f, nom_law ws (fun v => c * f v) = c * nom_law ws f.
  Proof. unfold nom_law. induction ws as [|p ws IH]; intros c f; cbn [map]; [cbn; ring|]. change (sumR (?a :: ?l)) with (a + sumR l). rewrite IH. ring. Qed.
  Lemma mean_plus : forall bs f g a, mean bs (fun a => f a + g a) a = mean bs f a + mean bs g a.
  Proof. induction bs as [|b bs IH]; intros f g a; cbn [mean]; auto. rewrite <- nom_plus. f_equal. extensionality v. apply IH. Qed.
  Lemma mean_const : forall bs f a, Forall (fun b => wf_leaf (NominalLeaf (fst b) (snd b))) bs -> stills bs f -> mean bs f a = f a.
  Proof.
    induction bs as [|b bs IH]; intros f a W H; cbn [mean]; auto. inversion W as [|? ? (_ & W1 & W2) W3]; subst. transitivity (nom_law (snd b) (fun _ => f a)).
    - f_equal. extensionality v. rewrite IH by (auto; intros x Hx; apply H; now right). apply H. now left.
    - apply law_const. now apply nom_law_law.
  Qed.
  Lemma mean_factor : forall bs f g a, stills bs g -> mean bs (fun a => g a * f a) a = g a * mean bs f a.
  Proof.
    induction bs as [|b bs IH]; intros f g a H; cbn [mean]; auto. rewrite <- nom_scale. f_equal. extensionality v. rewrite IH by (intros x Hx; apply H; now right). f_equal. apply H. now left.
  Qed.
  Lemma nom_bnd : forall ws (f : asg -> fval -> R), (forall v, bnd (fun a => f a v)) -> bnd (fun a => nom_law ws (f a)).
  Proof. intros ws f H. unfold nom_law. apply (bnd_sum _ _ ws (fun p a => f a (FStr (fst p)) * Q2R (snd p))). intros p _. apply bnd_mult; auto with bnd. Qed.
  Lemma mean_bnd : forall bs f, bnd f -> bnd (mean bs f).
  Proof.
    induction bs as [|b bs IH]; intros f H; cbn [mean]; auto. apply (nom_bnd (snd b) (fun a v => mean bs f (upd a (fst b) v))). intros v. apply (bnd_comp _ _ (fun a => upd a (fst b) v)). auto.
  Qed.
  Lemma tame_sum : forall V bs K ws (f : fval -> asg -> R) a, tame V bs K -> (forall v, bnd (f v)) -> nom_law ws (fun v => K (f v) a) = K (fun b => nom_law ws (fun v => f v b)) a.
  Proof.
    intros V bs K ws f a T H. unfold nom_law. induction ws as [|p ws IH]; cbn [map].
    - cbn. symmetry. transitivity (K (fun b => 0 * (fun _ => 0) b) a); [apply (ta_reach _ _ _ T); intros; ring|]. rewrite (ta_scale _ _ _ T) by auto with bnd. ring.
    - change (sumR (?a :: ?l)) with (a + sumR l). rewrite IH. transitivity (K (fun b => Q2R (snd p) * f (FStr (fst p)) b + sumR (map (fun p => f (FStr (fst p)) b * Q2R (snd p)) ws)) a).
      + rewrite (ta_plus _ _ _ T), (ta_scale _ _ _ T) by (auto with bnd; apply (bnd_sum _ _ ws (fun p a => f (FStr (fst p)) a * Q2R (snd p))); intros; apply bnd_mult; auto with bnd). ring.
      + apply (ta_reach _ _ _ T). intros b _. change (sumR (?a :: ?l)) with (a + sumR l). ring.
  Qed.
  Lemma mean_tame : forall V bs K es g a, tame V bs K -> (forall x, In x (map fst es) -> ~ V x /\ ~ In x (map fst bs)) -> bnd g -> mean es (K g) a = K (mean es g) a.
  Proof.
    intros V bs K es g a T. revert a. induction es as [|b es IH]; intros a H Hg; cbn [mean]; auto.
    transitivity (nom_law (snd b) (fun v => K (fun c => mean es g (upd c (fst b) v)) a)).
    - f_equal. extensionality v. rewrite IH by (auto; intros; apply H; now right). destruct (H (fst b)) as (H1 & H2); [now left|]. now apply (ta_move _ _ _ T).
    - apply (tame_sum V bs K (snd b) (fun v c => mean es g (upd c (fst b) v)) a T). intros v. apply (bnd_comp _ _ (fun a => upd a (fst b) v)). now apply mean_bnd.
  Qed.
  Lemma still_ignores : forall x f, still x f -> ignores (eq x) f.
  Proof.
    intros x f H w w' E. rewrite <- (H w (w' x)). f_equal. extensionality z. unfold upd. destruct (String.eqb_spec x z) as [->|Ne]; [reflexivity|]. now apply E.
  Qed.
  Lemma upd_out : forall (x : string) (a : asg) v (V : string -> Prop), V x -> same_out V a (upd a x v).
  Proof. intros x a v V H z Hz. unfold upd. destruct (String.eqb_spec x z) as [->|]; [contradiction|reflexivity]. Qed.
  Lemma den_still : forall s x f, wf_spe s -> still x f -> still x (den s f).
  Proof.
    intros s x f W H a v. symmetry. apply (den_local dlaw s W (eq x) f (still_ignores x f H)). apply upd_out. auto.
  Qed.
  Lemma prod_still : forall l x f, All wf_spe l -> still x f -> still x (den_prod l f).
  Proof.
    intros l x f W H a v. symmetry. apply (prod_local_wf dlaw l W (eq x) f (still_ignores x f H)). apply upd_out. auto.
  Qed.
  Lemma tame_still : forall V bs K x f, tame V bs K -> ~ V x -> ~ In x (map fst bs) -> still x f -> still x (K f).
  Proof. intros V bs K x f T Hv Hb H a v. rewrite (ta_move _ _ _ T) by auto. apply (ta_reach _ _ _ T). intros b _. apply H. Qed.

  (** the sum over the branches *)
  Fixpoint select (i : nat) (l : list R) (u : fval) : R :=
    match l with [] => 0 | d :: l => ind (fun u => u = FStr (nat_text i)) u * d + select (1 + i) l u end.
  Lemma select_before : forall l i m, (m < i)%nat -> select i l (FStr (nat_text m)) = 0.
  Proof.
    induction l as [|d l IH]; intros i m H; cbn [select]; auto. rewrite IH by lia. rewrite (ind_false _ (fun u => u = FStr (nat_text i))); [ring|]. intros [= E]. apply nat_text_inj in E. lia.
  Qed.
  Lemma select_sum : forall (l : list (lg S)) (ds : list R) i (G : fval -> R), List.length ds = List.length l ->
    (forall m, (i <= m)%nat -> G (FStr (nat_text m)) = select i ds (FStr (nat_text m))) ->
    nom_law (combine (map nat_text (seq i (List.length l))) (map lexp l)) G = sumR (map (fun p => toP (fst p) * snd p) (combine l ds)).
  Proof.
    induction l as [|w l IH]; intros [|d ds] i G L H; try discriminate L; [reflexivity|]. cbn [List.length seq map combine fst snd].
    change (nom_law _ G) with (G (FStr (nat_text i)) * Q2R (lexp w) + nom_law (combine (map nat_text (seq (1 + i) (List.length l))) (map lexp l)) G).
    change (sumR (?a :: ?l)) with (a + sumR l). rewrite (IH ds). 2:{ cbn in L. lia. }
    2:{ intros m Hm. rewrite H by lia. cbn [select]. rewrite (ind_false _ (fun u => u = FStr (nat_text i))); [ring|]. intros [= E]. apply nat_text_inj in E. lia. }
    rewrite H by lia. cbn [select]. rewrite (ind_true _ (fun u => u = FStr (nat_text i))) by auto. rewrite select_before by lia. rewrite Hl. ring.
  Qed.

  Lemma names_range : forall (bs : list (string * list (string * Q))) k x, map fst bs = map branch_var (seq k (List.length bs)) -> In x (map fst bs) -> exists j, x = branch_var j /\ (k <= j < k + List.length bs)%nat.
  Proof. intros bs k x E H. rewrite E in H. apply in_map_iff in H. destruct H as (j & <- & Hj). apply in_seq in Hj. eauto. Qed.
  Lemma not_plain : forall j, ~ plain_name (branch_var j).
  Proof. intros j (_ & H). now apply (H j). Qed.
  Lemma coded_mean :
    (forall k s cs K bs, coded k s cs K bs -> forall f a, bnd f -> stills bs f -> mean bs (K f) a = den s f a) /\
    (forall k l cs K bs, coded_all k l cs K bs -> forall f a, bnd f -> stills bs f -> mean bs (K f) a = den_prod l f a) /\
    (forall v i k l cs K bs, coded_cases v i k l cs K bs -> All (fun c => wf_spe (fst c)) l -> forall j f a, v = branch_var j -> (j < k)%nat -> bnd f -> still v f -> stills bs f ->
       mean bs (K f) a = select i (map (fun c => den (fst c) f a) l) (a v)).
  Proof.
    apply coded_mut; intros; auto.
    - now apply H1.
    - rewrite (H1 f a) by auto. cbn [SpeSpec.den map]. destruct H as (_ & T & _). cbn in T |- *. transitivity ((toP (snd c) + 0) * den (fst c) f a); [rewrite T|]; ring.
    - (* sum *)
      cbn [mean fst snd]. assert (Sv : still (branch_var k) f) by (apply H3; now left).
      transitivity (nom_law (branch_dist lexp (map snd l)) (fun v => select 0 (map (fun c => den (fst c) f a) l) v)).
      + f_equal. extensionality v. rewrite (H1 (proj1 H) k f _ eq_refl) by (auto; try lia; intros x Hx; apply H3; now right).
        unfold upd at 2. rewrite String.eqb_refl. f_equal. apply map_ext_in. intros c Hc. apply (den_still (fst c)); auto. exact (sum_wf dlaw l H c Hc).
      + unfold branch_dist. rewrite (select_sum (map snd l) (map (fun c => den (fst c) f a) l) 0) by (try rewrite !map_length; auto). cbn [SpeSpec.den]. clear. induction l as [|c l IH]; [reflexivity|]. cbn [map combine fst snd]. change (sumR (?a :: ?l)) with (a + sumR l). now rewrite IH.
    - (* product *)
      pose proof (proj1 coded_names _ _ _ _ _ H) as N1. pose proof (proj1 (proj2 coded_names) _ _ _ _ _ H1) as N2.
      pose proof (proj1 coded_tame _ _ _ _ _ H) as T1. pose proof (proj1 coded_plain _ _ _ _ _ H) as P1.
      assert (Wl : All wf_spe l) by exact (proj1 (proj2 coded_wf) _ _ _ _ _ H1).
      rewrite mean_app. rewrite (mean_ext bs _ (K (den_prod l f))).
      + rewrite H0; [reflexivity| |].
        * apply (kernel_bnd (den_prod l)); auto. now apply (prod_kernel dlaw).
        * intros x Hx. apply prod_still; auto. apply H4. rewrite map_app. apply in_or_app. auto.
      + intros b. rewrite (mean_tame (vars c) bs K es (L f) b T1).
        * f_equal. extensionality z. apply H2; auto. intros x Hx. apply H4. rewrite map_app. apply in_or_app. auto.
        * intros x Hx. destruct (names_range _ _ _ N2 Hx) as (j & -> & Hj). split; [intros Hv; apply P1 in Hv; now apply not_plain in Hv|]. intros Hb. destruct (names_range _ _ _ N1 Hb) as (j' & E & Hj'). apply branch_var_inj in E. lia.
        * apply (ta_bnd _ _ _ (proj1 (proj2 coded_tame) _ _ _ _ _ H1)). auto.
    - subst v. destruct H4 as (Wc & Wl).
      pose proof (proj1 coded_names _ _ _ _ _ H) as N1. pose proof (proj2 (proj2 coded_names) _ _ _ _ _ _ _ H2) as N2.
      pose proof (proj1 coded_tame _ _ _ _ _ H) as T1. pose proof (proj1 coded_plain _ _ _ _ _ H) as P1.
      pose proof (proj1 coded_weights _ _ _ _ _ H) as W1. pose proof (proj2 (proj2 coded_weights) _ _ _ _ _ _ _ H2) as W2.
      assert (S1 : stills bs f) by (intros x Hx; apply H9; rewrite map_app; apply in_or_app; auto).
      assert (S2 : stills es f) by (intros x Hx; apply H9; rewrite map_app; apply in_or_app; auto).
      assert (Sp : forall x, In x (map fst bs) \/ In x (map fst es) -> forall m, still x (ind (picked (branch_var j) m))).
      { intros x Hx m b u. apply ind_eq. unfold picked, upd. destruct (String.eqb_spec x (branch_var j)) as [->|]; [exfalso|reflexivity].
        destruct Hx as [Hx|Hx]; [destruct (names_range _ _ _ N1 Hx) as (j' & E & Hj')|destruct (names_range _ _ _ N2 Hx) as (j' & E & Hj')]; apply branch_var_inj in E; lia. }
      rewrite mean_plus. cbn [map select]. f_equal.
      + rewrite mean_app. rewrite (mean_ext bs _ (fun a => ind (picked (branch_var j) i) a * K f a)).
        * rewrite mean_factor by (intros x Hx; apply Sp; auto). rewrite H0 by auto. f_equal.
        * intros b. apply mean_const; auto. intros x Hx b' u. rewrite (Sp x (or_intror Hx) i). f_equal. apply (tame_still (vars (fst c)) bs K x f T1); auto.
          { destruct (names_range _ _ _ N2 Hx) as (j' & -> & _). intros Hv. apply P1 in Hv. now apply not_plain in Hv. }
          { intros Hb. destruct (names_range _ _ _ N1 Hb) as (j1 & E1 & Hj1). destruct (names_range _ _ _ N2 Hx) as (j2 & -> & Hj2). apply branch_var_inj in E1. lia. }
      + rewrite mean_app. rewrite (mean_ext bs _ (fun a => select (1 + i) (map (fun c => den (fst c) f a) l) (a (branch_var j)))).
        * apply mean_const; auto. intros x Hx b u.
          assert (E : map (fun c => den (fst c) f (upd b x u)) l = map (fun c => den (fst c) f b) l) by (apply map_ext_in; intros d Hd; apply den_still; auto; exact (All_In _ _ _ _ Wl Hd)). rewrite E. f_equal.
          unfold upd. destruct (String.eqb_spec x (branch_var j)) as [->|]; [exfalso|reflexivity]. destruct (names_range _ _ _ N1 Hx) as (j' & E' & Hj'). apply branch_var_inj in E'. lia.
        * intros b. apply (H3 Wl j f b eq_refl); auto. lia.
  Qed.
End Code.
