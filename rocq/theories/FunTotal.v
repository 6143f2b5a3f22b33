(** Events that compare functions of variables are brought into normal form. *)
From Coq Require Import List Bool String Reals Lra Lia ZArith Permutation.
From Verif Require Import Base Num Sets SetSpec SetIv SetProofs SetOr SetOps SetAlg SetBuilt
  Poly Trans TransSpec TransFacts PolyProofs InvProofs InvMain EvProofs ArithProofs
  Dnf DnfSpec DnfProofs DnfUnion PropDnf LeafProofs LeafEvents Logs Spe SpeSpec SpeFacts SpeCons TotalSpec TotalEnds TotalSets TotalSolve TotalProofs SolveSpec InvTotal AskSpec NarrowTotal FunSpec.
Import ListNotations.

Section Fun.
  Context {N : numsys} (io : iterorder N) (po : polyoracle N) (fuel : nat).
  Notation pset := (pset N).
  Notation tr := (tr N).
  Context (nominal : string -> bool) (cuts points : string -> R -> Prop).
  Notation cmp := (cmp (N:=N) nominal cuts points).
  Notation cmps := (cmps (N:=N) nominal cuts points).
  Notation fits := (fits (N:=N) nominal cuts points).
  Notation comparison := (comparison (N:=N) nominal cuts points).
  Notation curve := (curve po nominal cuts).
  Notation posed := (posed po nominal cuts points).

  Definition apart (x : string) (c : list tr) : Prop := ForallOrdPairs (fun a b => ~ (In x (symbols a) /\ In x (symbols b))) c.
  Lemma apart_app : forall x a b, apart x a -> apart x b -> (forall p q, In p a -> In q b -> ~ (In x (symbols p) /\ In x (symbols q))) -> apart x (a ++ b).
  Proof.
    intros x a b A B C. unfold apart in *. induction A as [|p a Fp A IH]; [exact B|]. cbn [app]. constructor.
    - apply Forall_app. split; auto. apply Forall_forall. intros q Hq. apply C; auto. now left.
    - apply IH. intros r q Hr Hq. apply C; auto. now right.
  Qed.
  Lemma single_apart : forall x e c, single x e -> In c (to_dnf_list e) -> apart x c.
  Proof.
    intros x. induction e using tr_ind'; intros c Sx Hc; try (cbn in Hc; destruct Hc as [<-|[]]; constructor; [constructor|constructor]).
    - cbn [to_dnf_list single] in *. apply in_concat in Hc. destruct Hc as (m & H1 & H2). apply in_map_iff in H1. destruct H1 as (e & <- & H1). rewrite Forall_forall in H. apply (H e H1); auto. exact (SpeFacts.All_In _ _ _ _ Sx H1).
    - cbn [to_dnf_list single] in *. destruct Sx as (Sl & Ap). apply in_map_iff in Hc. destruct Hc as (d & <- & Hd). apply in_product in Hd. revert d Hd. induction l as [|e l IH]; intros d Hd; cbn [map] in Hd; inversion Hd as [|p L d' M Hp Hd']; subst; [constructor|].
      inversion H as [|? ? He Hl]; subst. destruct Sl as (Se & Sl). inversion Ap as [|? ? Fa Ap']; subst. cbn [List.concat]. apply apart_app; [now apply He|now apply IH|].
      intros a b Ha Hb (Xa & Xb). apply in_concat in Hb. destruct Hb as (q & Hq & Hb).
      assert (exists e', In e' l /\ In q (to_dnf_list e')) as (e' & He' & Hq').
      { clear -Hd' Hq. revert l Hd'. induction d' as [|p d' IH]; intros l Hd; [destruct Hq|]. destruct l as [|e l]; cbn [map] in Hd; inversion Hd; subst. destruct Hq as [->|Hq]; [exists e; split; [now left|auto]|]. destruct (IH Hq l) as (e' & A & B); auto. exists e'. split; [now right|auto]. }
      rewrite Forall_forall in Fa. apply (Fa e' He'). split; apply symbols_lits; [exists a|exists b]; (split; [eapply to_dnf_list_lits; eauto|auto]).
  Qed.

  (** ** Literals; those that compare a function have the property Q *)
  Context (Q : tr -> Prop).
  Definition marked (e : tr) : Prop := Forall (fun a => comparison a \/ Q a) (lits e).
  Definition lit (x : string) (a : tr) : Prop := cmp x a \/ (gev a /\ (curve a /\ Q a) /\ symbols a = [x]).
  Lemma lit_symbols : forall x a, lit x a -> symbols a = [x].
  Proof. intros x a [C|(_ & _ & E)]; auto. now apply (cmp_symbols nominal cuts points). Qed.
  Lemma lit_gev : forall x a, lit x a -> gev a.
  Proof. intros x a [(G & _)|(G & _)]; auto. Qed.
  Lemma lit_basic : forall x a, lit x a -> is_basic a = true.
  Proof. intros x a [(_ & k & v & -> & _)|(_ & ((j & t & v & y & -> & _) & _) & _)]; reflexivity. Qed.
  (** ** Comparisons of one-to-one functions of one variable, and their conjunctions *)
  Lemma calm_same : forall t k k', k <> Ext -> k' <> Ext -> calm (N:=N) k t -> calm k' t.
  Proof.
    induction t; intros k1 k2 N1 N2 C; cbn [calm] in *; auto; eauto.
    destruct coeffs as [|c0 [|c1 [|c2 l]]]; auto. apply (IHt (lower k1)); auto; destruct k1, k2; cbn; congruence.
  Qed.
  Definition tlit (x : string) (a : tr) : Prop :=
    gev a /\ exists j t v k, a = EBasic j t v /\ j <> KNom /\ (k = One \/ k = Few) /\ chain po k t /\ fit k v /\ narrow t /\ calm One t /\ symbols t = [x].
  Definition joined (x : string) (a : tr) : Prop :=
    nominal x = false /\ (forall r, cuts x r) /\ (tlit x a \/ exists l, a = EAnd l /\ l <> [] /\ Forall (tlit x) l).
  Lemma tlit_gev : forall x a, tlit x a -> gev a. Proof. intros x a H. apply H. Qed.
  Lemma tlit_symbols : forall x a, tlit x a -> symbols a = [x].
  Proof. intros x a (_ & j & t & v & k & -> & _ & _ & _ & _ & _ & _ & E). exact E. Qed.
  Lemma chained_sort : forall e, chained po e -> exists k j t v, (k = One \/ k = Few) /\ e = EBasic j t v /\ j <> KNom /\ chain po k t /\ fit k v.
  Proof.
    intros e C. destruct e; try contradiction. destruct k; try contradiction; cbn in C.
    - destruct values as [|[| |i]|]; try contradiction. destruct C as (W & C). exists One. do 3 eexists. split; [now left|]. split; [reflexivity|]. split; [discriminate|]. split; [exact C|now apply iv_fit].
    - destruct values as [|[|vs|]|]; try contradiction.
      assert (K : chain po One e /\ (exists a, vs = [Fin a]) \/ wf_b (BReal vs) /\ inffree (PB (BReal vs)) /\ chain po Few e) by (destruct vs as [|[|a|] [|]]; try (right; exact C); left; eauto).
      destruct K as [(K & a & ->)|(W & I & K)]; [exists One|exists Few]; do 3 eexists; (split; [auto|]); (split; [reflexivity|]); (split; [discriminate|]); (split; [exact K|]).
      + apply one_fit. eauto.
      + right. right. split; [eauto|split; [exact W|exact I]].
  Qed.
  Lemma chain_move : forall s t k1 k2, teqb t s = true -> narrow s -> (k1 = One \/ k1 = Few) -> (k2 = One \/ k2 = Few) -> chain po k1 s -> chain po k2 t -> chain po k2 s.
  Proof.
    assert (Lw : forall k, k = One \/ k = Few -> lower k = k) by (intros k [-> | ->]; reflexivity).
    induction s; intros t k1 k2 E Ns K1 K2 C1 C2; try (destruct Ns; fail); destruct t; try discriminate E; cbn [chain teqb narrow] in *; auto.
    - apply andb_true_iff in E. destruct E as (E & _). eauto.
    - destruct C1 as (A & B & _ & D), C2 as (_ & _ & F & _). auto.
    - apply andb_true_iff in E. destruct E as (E & _). destruct C1 as (A & B & C1), C2 as (_ & _ & C2). split; auto. split; auto. eauto.
    - apply andb_true_iff in E. destruct E as (E & El). destruct coeffs as [|c0 [|c1 [|]]]; try contradiction. destruct coeffs0 as [|d0 [|d1 [|]]]; cbn in El; try discriminate El; try (repeat rewrite andb_false_r in El; discriminate El).
      destruct C1 as (A & C1), C2 as (_ & C2). rewrite (Lw k1 K1) in C1. rewrite (Lw k2 K2) in C2. rewrite (Lw k2 K2). split; auto. eauto.
  Qed.
  Lemma few_inf : forall k (v : pset), k = One \/ k = Few -> fit k v -> wf v /\ real_set v /\ inffree v /\ basic v.
  Proof. intros k v K F. destruct (fit_wf k v F). split; auto. split; auto. split; [apply (fit_inffree k); auto; destruct K; congruence|apply (basic_of k); auto; destruct K; congruence]. Qed.
  Lemma pand_basic : forall v w : pset, wf v -> wf w -> real_set v -> inffree v -> basic v -> basic w ->
    exists r, pand io v w = Ok r /\ wf r /\ real_set r /\ inffree r /\ basic r.
  Proof.
    intros v w Wv Ww Rv Iv [->|(b & ->)] [->|(c & ->)]; try (exists PEmpty; split; [reflexivity|]; split; [exact Logic.I|]; split; [exact Logic.I|]; split; [intros x []|now left]).
    destruct (and_bb_ok b c Wv Ww) as (r & E & (A & B & C) & Nu). exists r. split; [exact E|]. split; auto. split; auto. split; [intros x Hx; apply Iv; now apply B|]. destruct r; [now left|right; eauto|destruct Nu].
  Qed.
  Lemma and_fit : forall k1 k2 (v w : pset), k1 = One \/ k1 = Few -> k2 = One \/ k2 = Few -> fit k1 v -> fit k2 w -> exists r, pand io v w = Ok r /\ (fit k1 r \/ fit k2 r).
  Proof.
    intros k1 k2 v w K1 K2 F1 F2. destruct (few_inf _ _ K1 F1) as (Wv & Rv & Iv & Bv), (few_inf _ _ K2 F2) as (Ww & Rw & Iw & Bw).
    destruct Bv as [->|(b & ->)]; [exists PEmpty; split; [reflexivity|left; now left]|]. destruct Bw as [->|(c & ->)]; [exists PEmpty; split; [reflexivity|left; now left]|].
    destruct b as [vs f|vs|i]; [destruct Rv| |].
    - destruct c as [ws g|ws|j]; [destruct Rw| |].
      + destruct (pand_basic (PB (BReal vs)) (PB (BReal ws)) Wv Ww Rv Iv) as (r & E & W & R & I & B); [right; eauto|right; eauto|]. exists r. split; [exact E|]. left.
        destruct K1 as [->| ->].
        * destruct F1 as [F1|[(i & F1 & _)|(a & F1)]]; try discriminate F1. injection F1 as ->. cbn [pand and_bb] in E. injection E as <-. unfold and_real_real. cbn [filter]. destruct (inb _ _ ws); cbn; [right; right; eauto|now left].
        * cbn [pand and_bb] in E. injection E as <-. destruct (and_real_real vs ws) as [|[ | | ]|] eqn:Er; [now left|destruct R| |right; left; eauto|destruct B as [B|(? & B)]; discriminate B]. right. right. split; [eauto|]. split; [exact W|exact I].
      + destruct (meet_fit k1 (BReal vs) j) as (r & E & _ & Fr); auto. exists r. split; [exact E|now left].
    - destruct (meet_fit k2 c i) as (r & E & _ & Fr); auto. exists r. split; [exact E|now right].
  Qed.
  Lemma and_tlit : forall x a b, tlit x a -> tlit x b -> exists c, ev_and io a b = Ok c /\ (tlit x c \/ c = EAnd [a; b]).
  Proof.
    intros x a b Ta Tb. pose proof Ta as (Ga & j & s & v & k1 & -> & Nj & K1 & C1 & F1 & Ns & Cs & Ss). pose proof Tb as (Gb & j' & t & w & k2 & -> & Nj' & K2 & C2 & F2 & Nt & Ct & St).
    assert (Ev : EventAnd (N:=N) [EBasic j s v; EBasic j' t w] = Ok (EAnd [EBasic j s v; EBasic j' t w])) by (apply EvProofs.EventAnd_total; [discriminate|auto]).
    pose proof (ev_and_ok io (EBasic j s v) (EBasic j' t w)) as Ok1.
    unfold ev_and in *. destruct (teqb t s) eqn:E; [|eexists; split; [exact Ev|now right]].
    destruct (and_fit k1 k2 v w K1 K2 F1 F2) as (r & Er & Fr). rewrite Er in *. cbn [bind] in *.
    assert (Fk : exists k, (k = One \/ k = Few) /\ chain po k s /\ fit k r) by (destruct Fr as [Fr|Fr]; [exists k1; auto|exists k2; split; auto; split; auto; now apply (chain_move s t k1)]).
    destruct Fk as (k & Kk & Ck & Fk). destruct (few_inf k r Kk Fk) as (W & R & I & B).
    destruct B as [->|(c & ->)].
    - cbn [event_of_set] in *. eexists. split; [reflexivity|]. left. destruct (Ok1 _ Ga Gb eq_refl) as (G & _). split; auto. exists KReal, s, PEmpty, k. repeat split; auto. discriminate.
    - destruct c as [vs f|vs|i]; [destruct R| |]; cbn [event_of_set] in *; (eexists; split; [reflexivity|]; left; destruct (Ok1 _ Ga Gb eq_refl) as (G & _); split; auto; do 4 eexists; split; [reflexivity|]; split; [discriminate|]; split; [exact Kk|]; auto).
  Qed.
  Lemma and_joined : forall x b a, joined x b -> tlit x a -> exists c, ev_and io b a = Ok c /\ joined x c.
  Proof.
    intros x b a (Nx & Cx & H) Ta. destruct H as [Tb|(l & -> & Nl & Fl)].
    - destruct (and_tlit x b a Tb Ta) as (c & E & [T| ->]); [exists c|exists (EAnd [b; a])]; (split; [exact E|]); split; auto; split; auto. right. eexists. split; [reflexivity|]. split; [discriminate|auto].
    - exists (EAnd (l ++ [a])). split; [|split; auto; split; auto; right; eexists; split; [reflexivity|]; split; [destruct l; discriminate|apply Forall_app; auto]].
      assert (Ev : EventAnd (l ++ [a]) = Ok (EAnd (l ++ [a]))) by (apply EvProofs.EventAnd_total; [destruct l; discriminate|]; apply Forall_app; split; [eapply Forall_impl; [|exact Fl]; apply tlit_gev|constructor; [now apply (tlit_gev x)|constructor]]).
      pose proof Ta as (_ & j & t & v & k & -> & _). exact Ev.
  Qed.
  Lemma solve_joined : forall x a, 2 <= fuel -> joined x a -> exists v, solve io po fuel a = Ok v /\ wf v /\ real_set v /\ inffree v /\ basic v.
  Proof.
    intros x a Hf (Nx & Cx & H).
    assert (One : forall b, tlit x b -> exists r, invert io po fuel b (PB (BReal [bit true])) = Ok r /\ wf r /\ real_set r /\ inffree r /\ basic r).
    { intros b (G & j & t & v & k & -> & Nj & K & C & F & Nt & Ct & St). rewrite invert_basic by (auto; lia). destruct (invert_out io po fuel t k v Hf C F) as (r & E & W & R & I). exists r. split; auto. split; auto. split; auto.
      split; [apply I; apply (calm_same t SolveSpec.One); auto; destruct K; congruence|]. apply (narrow_basic io po fuel t k v r); auto. destruct K; congruence. }
    destruct H as [T|(l & -> & Nl & Fl)].
    - pose proof T as (G & j & t & v & k & -> & Nj & K & C & F & Nt & Ct & St). unfold solve. assert (D : (exists y, t = TId y) \/ id_values (EBasic j t v) = None) by (destruct t; eauto). destruct D as [(y & ->)|D].
      + exists v. split; [reflexivity|]. now apply (few_inf k).
      + rewrite D. cbn [symbols]. rewrite St. cbn [List.length Nat.ltb Nat.leb]. now apply One.
    - unfold solve. cbn [id_values symbols].
      assert (L : (List.length (sunions (map symbols l)) <= 1)%nat).
      { unfold sunions. apply (dedup_same x). intros y Hy. apply in_concat in Hy. destruct Hy as (m & Hm & Hy). apply in_map_iff in Hm. destruct Hm as (e & <- & He). rewrite Forall_forall in Fl. rewrite (tlit_symbols x e (Fl e He)) in Hy. destruct Hy as [<-|[]]. reflexivity. }
      replace (Nat.ltb 1 _) with false by (symmetry; apply Nat.ltb_ge; exact L).
      cbn [invert range]. rewrite dispatch_bits by lia.
      assert (M : exists xs, mapM (fun e => invert io po fuel e (PB (BReal [bit true]))) l = Ok xs /\ Forall (fun r => wf r /\ real_set r /\ inffree r /\ basic r) xs /\ List.length xs = List.length l).
      { clear -Fl One. induction Fl as [|e l C Fl IH]; [exists []; cbn; auto|]. destruct (One e C) as (r & E & P). destruct IH as (xs & Ex & Fx & L). exists (r :: xs). cbn [mapM]. rewrite E. cbn [bind]. rewrite Ex. cbn. auto. }
      destruct M as (xs & -> & Fx & Lx). cbn [bind]. destruct xs as [|r xs]; [destruct l; [tauto|discriminate]|]. unfold make_intersection. cbn [reduceM]. inversion Fx as [|? ? Pr Fx']; subst. clear -Pr Fx'.
      revert r Pr. induction Fx' as [|q xs (Wq & Rq & Iq & Bq) F IH]; intros r (W & R & I & B); cbn [foldM]; [exists r; auto|]. destruct (pand_basic r q) as (p & E & P); auto. rewrite E. cbn [bind]. now apply IH.
  Qed.
  (** the literals of a clause: a variable occurs twice only if it is compared itself or through
      one-to-one functions *)
  Definition clean (c : list tr) : Prop := forall x, (forall a, In a c -> In x (symbols a) -> cmp x a) \/ apart x c \/
    (nominal x = false /\ (forall r, cuts x r) /\ forall a, In a c -> In x (symbols a) -> tlit x a).
  Lemma comparison_cmp : forall a x, gev a -> comparison a -> In x (symbols a) -> cmp x a.
  Proof. intros a x G (k & y & v & -> & F) Hx. destruct Hx as [<-|[]]. split; auto. exists k, v. auto. Qed.
  Lemma cmp_tlit : forall x a, nominal x = false -> cmp x a -> tlit x a.
  Proof.
    intros x a Nx (G & k & v & -> & F). unfold fits in F. rewrite Nx in F. destruct F as (Nk & R & I & _). pose proof (gev_wf _ _ _ G) as (_ & W & _). split; auto. exists k, (TId x), v, Few. split; auto. split; auto. split; auto. split; [exact Logic.I|]. split; [|split; [exact Logic.I|split; [discriminate|reflexivity]]].
    destruct v as [|[vs f|vs|i]|u]; [now left|destruct R| |right; left; eauto|now apply gev_not_union in G]. right. right. split; [eauto|]. split; [exact W|apply hasinf_inffree; [exact W|right; left; eauto|exact I]].
  Qed.
  Lemma curve_tlit : forall x a, gev a -> curve a -> thin a -> In x (symbols a) -> nominal x = false /\ (forall r, cuts x r) /\ tlit x a.
  Proof.
    intros x a G (j & t & v & y & -> & Ch & Ca & Sy & Ny & Cy) Th Hx. cbn [symbols] in Hx. rewrite Sy in Hx. destruct Hx as [<-|[]]. split; auto. split; auto. split; auto.
    destruct (chained_sort _ Ch) as (k & j' & t' & v' & Ko & E & Nj & Ct & Fv). injection E as <- <- <-. exists j, t, v, k. repeat (split; auto).
  Qed.
  Lemma posed_clause : forall e c, posed e -> marked e -> In c (to_dnf_list e) -> c <> [] /\ Forall (fun a => exists x, lit x a) c /\ clean c.
  Proof.
    intros e c (G & F & Sg) M Hc. unfold marked in M. destruct (to_dnf_list_ok e G) as (_ & Fc). rewrite Forall_forall in Fc. destruct (Fc c Hc) as (Nc & Bc). rewrite Forall_forall in *.
    split; auto. split.
    - intros a Ha. destruct (Bc a Ha) as (Ga & _). assert (Ia : In a (lits e)) by (eapply to_dnf_list_lits; eauto). assert (Cs : comparison a \/ curve a /\ Q a) by (destruct (F a Ia); auto; destruct (M a Ia); auto). destruct Cs as [C|(C & Qa)].
      + pose proof C as (k & x & v & -> & _). exists x. left. apply comparison_cmp; auto. now left.
      + pose proof C as (j & t & v & x & -> & _ & _ & Sx & _). exists x. right. auto.
    - intros x. destruct (Classical_Prop.classic (exists a, In a c /\ In x (symbols a) /\ ~ comparison a)) as [(a & Ha & Xa & Na)|No].
      + right. assert (Ia : forall b, In b c -> In b (lits e)) by (intros b Hb; eapply to_dnf_list_lits; eauto). destruct (Sg a x) as [K|[K|K]]; [auto|auto|tauto|left; now apply (single_apart x e)|]. right.
        destruct (F a (Ia a Ha)) as [C|C]; [tauto|]. destruct (curve_tlit x a) as (Nx & Cx & Ta); auto; [apply (Bc a Ha)|]. split; auto. split; auto. intros b Hb Xb. destruct (F b (Ia b Hb)) as [D|D].
        * apply cmp_tlit; auto. apply comparison_cmp; auto. apply (Bc b Hb).
        * apply (curve_tlit x b); auto. apply (Bc b Hb).
      + left. intros a Ha Xa. apply comparison_cmp; auto; [apply (Bc a Ha)|]. apply Classical_Prop.NNPP. intros K. apply No. eauto.
  Qed.

  (** ** Factoring *)
  Definition slot (x : string) (a : tr) : Prop := lit x a \/ joined x a.
  Notation lclause := (fun c : clause (N:=N) => c <> [] /\ Forall (fun p => slot (fst p) (snd p)) c).
  Lemma add_lit : forall c x a, Forall (fun p => slot (fst p) (snd p)) c -> lit x a ->
    (cmp x a /\ (forall p, In p c -> fst p = x -> cmp x (snd p)) \/ tlit x a /\ (forall p, In p c -> fst p = x -> joined x (snd p)) \/ ~ In x (map fst c)) ->
    exists c', add_key io c x a = Ok c' /\ c' <> [] /\ Forall (fun p => slot (fst p) (snd p)) c' /\ (forall y, In y (map fst c') <-> y = x \/ In y (map fst c)) /\
      (forall y, (forall p, In p c -> fst p = y -> cmp y (snd p)) -> (y = x -> cmp y a) -> forall p, In p c' -> fst p = y -> cmp y (snd p)) /\
      forall y, nominal y = false -> (forall r, cuts y r) -> (forall p, In p c -> fst p = y -> joined y (snd p)) -> (y = x -> tlit y a) -> forall p, In p c' -> fst p = y -> joined y (snd p).
  Proof.
    induction c as [|(k, b) c IH]; intros x a F L H; cbn [add_key].
    - exists [(x, a)]. split; [reflexivity|]. split; [discriminate|]. split; [apply Forall_cons; [left; exact L|apply Forall_nil]|]. split; [cbn; intuition|]. split.
      + intros y _ Hy p [<-|[]] E. cbn [fst snd] in *. auto.
      + intros y Ny Cy _ Hy p [<-|[]] E. cbn [fst snd] in *. split; auto.
    - inversion F as [|? ? Lb F']; subst. cbn [fst snd] in Lb. destruct (String.eqb_spec x k) as [<-|Nk].
      + assert (R : exists e, ev_and io b a = Ok e /\ slot x e /\ (cmp x b -> cmp x a -> cmp x e) /\ (joined x b -> tlit x a -> joined x e)).
        { assert (R1 : cmp x b -> cmp x a -> exists e, ev_and io b a = Ok e /\ cmp x e).
          { intros Cb Ca. destruct (and_lit_total io x b a) as (e & E); [apply Cb|apply Ca|destruct Cb as (_ & k' & v & -> & _); exists k', v; reflexivity|destruct Ca as (_ & k' & v & -> & _); exists k', v; reflexivity|].
            exists e. split; auto. exact (and_cmp io nominal cuts points x b a e Cb Ca E). }
          destruct H as [(Ca & Hc)|[(Ta & Hc)|H]]; [| |exfalso; apply H; now left].
          - pose proof (Hc (x, b) ltac:(now left) eq_refl) as Cb. cbn [snd] in Cb. destruct (R1 Cb Ca) as (e & E & Ce). exists e. split; auto. split; [left; now left|]. split; auto.
            intros Jb Ta. destruct (and_joined x b a Jb Ta) as (e' & E' & Je). congruence.
          - pose proof (Hc (x, b) ltac:(now left) eq_refl) as Jb. cbn [snd] in Jb. destruct (and_joined x b a Jb Ta) as (e & E & Je). exists e. split; auto. split; [now right|]. split; auto.
            intros Cb Ca. destruct (R1 Cb Ca) as (e' & E' & Ce). congruence. }
        destruct R as (e & E & Se & Ce & Je). rewrite E. cbn [bind]. eexists. split; [reflexivity|]. split; [discriminate|]. split; [constructor; auto|]. split; [cbn; intuition|]. split.
        * intros y Hy Hx p [<-|Hp] Ep; [cbn [fst snd] in *; subst y; apply Ce; auto; apply (Hy (x, b)); auto; now left|]. apply Hy; auto. now right.
        * intros y Ny Cy Hy Hx p [<-|Hp] Ep; [cbn [fst snd] in *; subst y; apply Je; auto; apply (Hy (x, b)); auto; now left|]. apply Hy; auto. now right.
      + destruct (IH x a F' L) as (c' & E & Nc & Fc & Kc & Yc & Zc).
        { destruct H as [(Ca & Hc)|[(Ta & Hc)|H]]; [left; split; auto; intros p Hp; apply Hc; now right|right; left; split; auto; intros p Hp; apply Hc; now right|right; right; intros K; apply H; now right]. }
        rewrite E. cbn [bind]. eexists. split; [reflexivity|]. split; [discriminate|]. split; [constructor; auto|]. split; [|split].
        * intros y. cbn [map fst]. cbn [In]. rewrite Kc. intuition.
        * intros y Hy Hx p [<-|Hp] Ep; [apply (Hy (k, b)); auto; now left|]. apply (Yc y); auto. intros q Hq. apply Hy. now right.
        * intros y Ny Cy Hy Hx p [<-|Hp] Ep; [apply (Hy (k, b)); auto; now left|]. apply (Zc y); auto. intros q Hq. apply Hy. now right.
  Qed.
  Lemma fold_lits : forall lk m c0, (forall x a, In a m -> In x (symbols a) -> lookup x lk = Some x) -> Forall (fun a => exists x, lit x a) m -> Forall (fun p => slot (fst p) (snd p)) c0 ->
    (forall x, (forall a, In a m -> In x (symbols a) -> cmp x a) /\ (forall p, In p c0 -> fst p = x -> cmp x (snd p)) \/ apart x m /\ (In x (map fst c0) -> forall a, In a m -> ~ In x (symbols a)) \/
      (nominal x = false /\ (forall r, cuts x r) /\ (forall a, In a m -> In x (symbols a) -> tlit x a)) /\ (forall p, In p c0 -> fst p = x -> joined x (snd p))) ->
    exists c, foldM (fun c e0 => do ke <- factor_lit lk e0; add_key io c (fst ke) (snd ke)) m c0 = Ok c /\ Forall (fun p => slot (fst p) (snd p)) c /\ (m <> [] \/ c0 <> [] -> c <> []).
  Proof.
    intros lk. induction m as [|a m IH]; intros c0 Hl Fm F0 H; cbn [foldM].
    - exists c0. split; [reflexivity|]. split; auto. intros [K|K]; auto.
    - inversion Fm as [|? ? (x & La) Fm']; subst. unfold factor_lit at 1. pose proof (lit_symbols x a La) as Sa. rewrite Sa. rewrite (Hl x a); [|now left|rewrite Sa; now left]. cbn [bind fst snd].
      assert (Xa : In x (symbols a)) by (rewrite Sa; now left).
      destruct (add_lit c0 x a F0 La) as (c1 & E & N1 & F1 & K1 & Y1 & Z1).
      { destruct (H x) as [(A & B)|[(A & B)|((_ & _ & A) & B)]]; [left; split; auto; apply A; auto; now left|right; right|right; left; split; auto; apply A; auto; now left]. intros K. apply (B K a); auto. now left. }
      rewrite E. cbn [bind]. destruct (IH c1) as (c & Ec & Fc & Nc); auto.
      + intros y b Hb. apply Hl. now right.
      + intros y. destruct (H y) as [(A & B)|[(A & B)|((Ny & Cy & A) & B)]].
        * left. split; [intros b Hb; apply A; now right|]. apply Y1; auto. intros ->. apply A; auto. now left.
        * right. left. inversion A as [|? ? Fa A']; subst. split; auto. intros K b Hb Yb. apply K1 in K. destruct K as [->|K]; [rewrite Forall_forall in Fa; apply (Fa b Hb); auto|]. apply (B K b); auto. now right.
        * right. right. split; [split; auto; split; auto; intros b Hb; apply A; now right|]. apply Z1; auto. intros ->. apply A; auto. now left.
      + exists c. split; [exact Ec|]. split; auto.
  Qed.
  Lemma factor_lits : forall (e : tr) c a, (forall x, In x (symbols a) -> In x (symbols e)) -> c <> [] -> Forall (fun a => exists x, lit x a) c -> clean c -> simplify_event (EventAnd (N:=N)) c = Ok a ->
    exists f, factor_clause io (map (fun s => (s, s)) (symbols e)) a = Ok f /\ lclause f.
  Proof.
    intros e c a Sy Nc Fc Cl H.
    assert (Lk : forall s, In s (symbols e) -> lookup s (map (fun s => (s, s)) (symbols e)) = Some s).
    { generalize (symbols e). induction l as [|y l IH]; intros s Hs; [destruct Hs|]. simpl. destruct (String.eqb_spec s y); [now subst|]. apply IH. destruct Hs; [congruence|auto]. }
    assert (K : forall x, (exists b, c = [b] /\ a = b /\ lit x b) -> exists f, factor_clause io (map (fun s => (s, s)) (symbols e)) a = Ok f /\ lclause f).
    { intros x (b & -> & <- & L). pose proof (lit_symbols x a L) as Sa. pose proof (lit_basic x a L) as Ba. exists [(x, a)]. split; [|split; [discriminate|constructor; [now left|constructor]]].
      destruct a; try discriminate Ba. cbn [factor_clause]. unfold factor_lit. rewrite Sa. rewrite Lk; [reflexivity|]. apply Sy. rewrite Sa. now left. }
    destruct c as [|b [|b' c]]; [tauto| |].
    - cbn in H. injection H as <-. inversion Fc as [|? ? (x & L) _]; subst. apply (K x). eauto.
    - cbn [simplify_event] in H. apply EventAnd_shape in H. subst a. clear K. cbn [factor_clause]. unfold factor_and.
      replace (forallb is_basic (b :: b' :: c)) with true; [|symmetry; apply forallb_forall; intros y Hy; rewrite Forall_forall in Fc; destruct (Fc y Hy) as (x & L); now apply (lit_basic x)]. cbn [passert bind].
      destruct (fold_lits (map (fun s => (s, s)) (symbols e)) (b :: b' :: c) []) as (f & E & F & Nf); auto.
      + intros x y Hy Hx. apply Lk, Sy. apply symbols_lits. exists y. cbn [lits]. split; auto. rewrite Forall_forall in Fc. destruct (Fc y Hy) as (z & L). apply in_lits_list. exists y. split; auto. rewrite (basic_lits y (lit_basic z y L)). now left.
      + intros x. destruct (Cl x) as [A|[A|A]]; [left; split; [exact A|intros p []]|right; left; split; [exact A|intros []]|right; right; split; [exact A|intros p []]].
      + exists f. split; [exact E|]. split; [|exact F]. apply Nf. left. discriminate.
  Qed.
  Lemma posed_factor : forall e, posed e -> marked e -> exists d f, to_dnf e = Ok d /\ dnf_factor io d = Ok f /\ f <> [] /\ Forall lclause f.
  Proof.
    intros e P Mk. pose proof P as (G & _). destruct (to_dnf_ok e G) as (d & Ed & Gd & Dd & _). exists d. unfold to_dnf in Ed. pose proof Ed as Ed0. inv_bind Ed. rename r into es. apply mapM_Forall2 in E.
    destruct (to_dnf_list_ok e G) as (Ne & _).
    assert (Cl : Forall2 (fun c a => In c (to_dnf_list e) /\ simplify_event (EventAnd (N:=N)) c = Ok a) (to_dnf_list e) es).
    { clear -E. assert (K : forall l, incl l (to_dnf_list e) -> forall es, Forall2 (fun c a => simplify_event (EventAnd (N:=N)) c = Ok a) l es -> Forall2 (fun c a => In c (to_dnf_list e) /\ simplify_event (EventAnd (N:=N)) c = Ok a) l es).
      { intros l I es' F. induction F; constructor; [split; auto; apply I; now left|]. apply IHF. intros z Hz. apply I. now right. } apply K; auto. apply incl_refl. }
    assert (Each : forall d' : tr, (forall a, In a es -> forall x, In x (symbols a) -> In x (symbols d')) -> exists f, mapM (factor_clause io (map (fun s => (s, s)) (symbols d'))) es = Ok f /\ Forall lclause f /\ List.length f = List.length es).
    { intros d' Sy. clear Ed Ed0 E Ne. induction Cl as [|c a l es (Hc & Sc) Cl IH]; [exists []; split; [reflexivity|split; [constructor|reflexivity]]|]. destruct (posed_clause e c P Mk Hc) as (Nc & Fc & Cc).
      destruct (factor_lits d' c a (Sy a ltac:(now left)) Nc Fc Cc Sc) as (f & Ef & Lf). destruct IH as (fs & Efs & Ffs & L); [intros b Hb; apply Sy; now right|]. exists (f :: fs). cbn [mapM]. rewrite Ef. cbn [bind]. rewrite Efs. cbn [bind List.length]. split; [reflexivity|]. split; auto. }
    assert (Shape : Forall (fun a => is_and a || is_basic a = true) es).
    { clear -Cl P Mk. induction Cl as [|c a l es (Hc & Sc) Cl IH]; constructor; auto. destruct (posed_clause e c P Mk Hc) as (Nc & Fc & _). destruct c as [|b [|b' c]]; [tauto| |].
      - cbn in Sc. injection Sc as <-. inversion Fc as [|? ? (x & L) _]; subst. rewrite (lit_basic x b L). apply orb_true_r.
      - cbn [simplify_event] in Sc. apply EventAnd_shape in Sc. subst. reflexivity. }
    assert (Ln : es <> []) by (intros ->; inversion Cl as [K|]; subst; apply Ne; now rewrite <- K).
    destruct es as [|a [|a' es]]; [tauto| |].
    - cbn in Ed. injection Ed as <-. destruct (Each a) as (f & Ef & Ff & Lf); [intros b [<-|[]]; auto|]. exists f. split; [exact Ed0|]. split; [|split; [intros ->; discriminate|auto]].
      inversion Shape as [|? ? Sa _]; subst. cbn [mapM] in Ef. unfold dnf_factor, dnf_factor_with. destruct a; try discriminate Sa; inv_bind Ef; inv_bind Ef; injection E1 as <-; injection Ef as <-; rewrite E0; reflexivity.
    - cbn [simplify_event] in Ed. apply EventOr_shape in Ed. subst d. destruct (Each (EOr (a :: a' :: es))) as (f & Ef & Ff & Lf).
      { intros b Hb x Hx. apply symbols_lits in Hx. destruct Hx as (y & Hy & Hx). apply symbols_lits. exists y. split; auto. cbn [lits]. apply in_lits_list. eauto. }
      exists f. split; [exact Ed0|]. split; [|split; [intros ->; discriminate|auto]]. unfold dnf_factor. cbn [dnf_factor_with].
      replace (forallb _ (a :: a' :: es)) with true; [cbn [passert bind]; exact Ef|]. symmetry. apply forallb_forall. rewrite Forall_forall in Shape. exact Shape.
  Qed.

  (** ** Solving *)
  (** what a literal's solution is *)
  Definition answer (x : string) (v : pset) : Prop :=
    (exists k, cmp x (EBasic k (TId x) v)) \/ nominal x = false /\ (forall r, cuts x r) /\ wf v /\ real_set v /\ inffree v.
  Lemma solve_lit : forall x a, 2 <= fuel -> lit x a -> exists v, solve io po fuel a = Ok v /\ answer x v.
  Proof.
    intros x a Hf [C|(G & ((j & t & v & y & -> & Ch & Ca & Sy & Ny & Cy) & _) & Sx)].
    - pose proof C as (_ & k & v & -> & _). exists v. split; [reflexivity|]. left. eauto.
    - cbn [symbols] in Sx. rewrite Sy in Sx. injection Sx as ->. destruct (chained_sort _ Ch) as (k & j' & t' & v' & Ko & E & Nj & Ct & Fv). injection E as <- <- <-. assert (Nk : k <> Ext) by (destruct Ko; congruence).
      assert (K : exists r, solve io po fuel (EBasic j t v) = Ok r /\ wf r /\ real_set r /\ inffree r).
      { unfold solve. assert (D : (exists y, t = TId y) \/ id_values (EBasic j t v) = None) by (destruct t; eauto). destruct D as [(y & ->)|D].
        - exists v. split; [reflexivity|]. destruct (fit_wf k v Fv). split; auto. split; auto. now apply (fit_inffree k).
        - rewrite D. cbn [symbols]. rewrite Sy. cbn [List.length Nat.ltb Nat.leb]. rewrite invert_basic by (auto; lia). destruct (invert_out io po fuel t k v Hf Ct Fv) as (r & E & W & R & I). exists r. split; auto. split; auto. split; auto. apply I. apply (calm_same t One); auto. discriminate. }
      destruct K as (r & E & W & R & I). exists r. split; auto. right. auto.
  Qed.
  Lemma solve_slot : forall x a, 2 <= fuel -> slot x a -> exists v, solve io po fuel a = Ok v /\ answer x v.
  Proof.
    intros x a Hf [L|J]; [now apply solve_lit|]. destruct (solve_joined x a Hf J) as (v & E & W & R & I & _). exists v. split; auto. right. destruct J as (Nx & Cx & _). auto.
  Qed.
  Definition answers (c : list (string * pset)) : Prop := c <> [] /\ Forall (fun p => answer (fst p) (snd p)) c.
  Lemma solve_lits : forall c, 2 <= fuel -> lclause c -> exists s, solve_clause io po fuel c = Ok s /\ answers s.
  Proof.
    intros c Hf (Ne & F). unfold solve_clause.
    assert (exists s, mapM (fun p => do v <- solve io po fuel (snd p); Ok (fst p, v)) c = Ok s /\ Forall (fun p => answer (fst p) (snd p)) s /\ List.length s = List.length c) as (s & E & Fs & L).
    { clear Ne. induction F as [|(x, a) c C F IH]; [exists []; split; [reflexivity|split; [constructor|reflexivity]]|]. destruct IH as (s & E & Fs & L). cbn [fst snd] in C. destruct (solve_slot x a Hf C) as (v & Ev & Av). exists ((x, v) :: s). cbn [mapM snd fst]. rewrite Ev. cbn [bind].
      rewrite E. cbn [bind]. split; [reflexivity|]. split; [|cbn [List.length]; congruence]. constructor; auto. }
    exists s. split; auto. split; auto. intros ->. destruct c; [tauto|discriminate].
  Qed.
  Lemma basic_answer : forall x b, nominal x = false -> (forall r, cuts x r) -> wf_b b -> real_b b -> inffree (PB (N:=N) b) -> exists e, t_in_basic (N:=N) (TId x) (PB b) = Ok e /\ cmps e.
  Proof.
    intros x b Nx Cx W R I. assert (exists k, t_in_basic (N:=N) (TId x) (PB b) = Ok (EBasic k (TId x) (PB b)) /\ k <> KNom) as (k & E & Nk) by (destruct b; [contradiction| |]; eexists; (split; [reflexivity|discriminate])).
    exists (EBasic k (TId x) (PB b)). split; auto. destruct (t_in_basic_ok (TId x) (PB b) _ Logic.I Logic.I W E) as (G & _). split; auto. cbn [lits]. constructor; [|constructor]. exists x. split; auto. exists k, (PB b). split; auto. unfold fits. rewrite Nx.
    split; auto. split; auto. split; [now apply inffree_hasinf|]. split; [|intros; left; apply Cx]. intros i _ r. intros; apply Cx.
  Qed.
  Lemma in_answer : forall x v, answer x v -> v <> PEmpty -> exists e, t_in io (TId x) v = Ok e /\ cmps e.
  Proof.
    intros x v [(k & C)|(Nx & Cx & W & R & I)] Ne.
    - exists (EBasic k (TId x) v). split; [now apply (t_in_cmp io nominal cuts points)|]. split; [apply C|]. cbn [lits]. eauto.
    - destruct v as [|b|u]; [tauto|now apply basic_answer|]. cbn [t_in].
      pose proof (proj1 (wf_union_iff u) W) as ((Wu & _) & Lu). cbn [real_set] in R.
      assert (exists es, mapM (fun b => t_in_basic (TId x) (PB b)) u = Ok es /\ Forall cmps es /\ List.length es = List.length u) as (es & E & F & L).
      { assert (K : forall b, In b u -> inffree (PB b)) by (intros b Hb r Hr; apply I; cbn [mem]; exists b; auto). clear -Nx Cx Wu R K. induction u as [|b u IH]; [exists []; cbn; auto|]. inversion Wu; inversion R; subst.
        destruct (basic_answer x b) as (e & E & C); auto; [apply K; now left|]. destruct IH as (es & Es & F & L); auto; [intros c Hc; apply K; now right|]. exists (e :: es). cbn [mapM]. rewrite E. cbn [bind]. rewrite Es. cbn [bind List.length]. auto. }
      rewrite E. cbn [bind]. apply (reduce_total nominal cuts points (ev_or io)); auto; [intros; now apply (or_total io nominal cuts points)|]. intros ->. destruct u; [cbn in Lu; lia|discriminate].
  Qed.
  Lemma conj_answers : forall c, answers c -> all_nonempty c = true -> exists d, conj_of io c = Ok d /\ cmps d.
  Proof.
    intros c (Ne & F) A. unfold conj_of, all_nonempty in *. rewrite forallb_forall in A.
    assert (exists es, mapM (fun p => t_in io (TId (fst p)) (snd p)) c = Ok es /\ Forall cmps es /\ List.length es = List.length c) as (es & E & Fs & L).
    { clear Ne. induction F as [|(x, v) c C F IH]; [exists []; split; [reflexivity|split; [constructor|reflexivity]]|]. destruct IH as (s & E & Fs & L); [intros p Hp; apply A; now right|]. cbn [fst snd] in C.
      destruct (in_answer x v C) as (e & Ee & Ce); [specialize (A (x, v) ltac:(now left)); cbn [snd] in A; intros ->; discriminate|]. exists (e :: s).
      cbn [mapM fst snd]. rewrite Ee. cbn [bind]. rewrite E. cbn [bind]. split; [reflexivity|]. split; [|cbn [List.length]; congruence]. constructor; auto. }
    rewrite E. cbn [bind]. apply (reduce_total nominal cuts points (ev_and io)); auto; [intros; now apply (and_total io nominal cuts points)|]. intros ->. destruct c; [tauto|discriminate].
  Qed.
  Lemma lit_id : forall x k v, lit x (EBasic k (TId x) v) -> cmp x (EBasic k (TId x) v).
  Proof.
    intros x k v [C|(G & ((j & t & u & y & [= <- <- <-] & Ch & _ & Sy & Ny & Cy) & _) & Sx)]; auto. cbn [symbols] in Sy. injection Sy as <-. split; auto. exists k, v. split; auto.
    destruct (chained_sort _ Ch) as (q & j' & t' & v' & Ko & E & Nj & Ct & Fv). injection E as <- <- <-. assert (Nq : q <> Ext) by (destruct Ko; congruence). destruct (fit_wf q v Fv) as (W & R). unfold fits. rewrite Ny. split; auto. split; auto. split; [apply inffree_hasinf, (fit_inffree q); auto|].
    split; [|intros; left; apply Cy]. intros i _ r. intros; apply Cy.
  Qed.
  Theorem posed_normalize : forall e, 2 <= fuel -> posed e -> marked e -> exists o, dnf_normalize io po fuel e = Ok o /\ forall d, o = Some d -> cmps d.
  Proof.
    intros e Hf P Mk. destruct (dnf_normalize_cases io po fuel e) as [(k & x & v & -> & E)|E].
    - exists (Some (EBasic k (TId x) v)). split; auto. intros d [= <-]. destruct (posed_clause _ [EBasic k (TId x) v] P Mk) as (_ & F & _); [now left|]. inversion F as [|? ? (y & L) _]; subst. pose proof (lit_symbols _ _ L) as Sy. injection Sy as <-. apply lit_id in L. split; [apply L|cbn [lits]; eauto].
    - rewrite E. clear E. unfold normalize_general. destruct (posed_factor e P Mk) as (d & f & -> & Hf' & Nf & Ff). cbn [bind]. rewrite Hf'. cbn [bind].
      assert (exists sols, mapM (solve_clause io po fuel) f = Ok sols /\ Forall answers sols) as (sols & Es & Fs).
      { clear -Ff Hf. induction Ff as [|c f Cc Ff IH]; [exists []; split; [reflexivity|constructor]|]. destruct IH as (s & E & F). destruct (solve_lits c Hf Cc) as (x & Ex & Fx). exists (x :: s). cbn [mapM]. rewrite Ex. cbn [bind]. rewrite E. cbn [bind]. auto. }
      rewrite Es. cbn [bind]. destruct (filter all_nonempty sols) as [|s0 sl] eqn:Ef; [eexists; split; [reflexivity|discriminate]|]. rewrite <- Ef.
      assert (Fu : Forall (fun c => answers c /\ all_nonempty c = true) (unseen [] (filter all_nonempty sols))).
      { apply Forall_forall. intros c Hc. apply unseen_incl in Hc. apply filter_In in Hc. destruct Hc as (Hc & A). rewrite Forall_forall in Fs. auto. }
      assert (exists cs, mapM (conj_of io) (unseen [] (filter all_nonempty sols)) = Ok cs /\ Forall cmps cs /\ List.length cs = List.length (unseen [] (filter all_nonempty sols))) as (cs & Ec & Fc & L).
      { clear -Fu. induction Fu as [|c l (Cc & A) Fu IH]; [exists []; split; [reflexivity|split; [constructor|reflexivity]]|]. destruct IH as (cs & E & F & L). destruct (conj_answers c Cc A) as (d & Ed & Cd). exists (d :: cs). cbn [mapM]. rewrite Ed. cbn [bind]. rewrite E. cbn [bind List.length].
        split; [reflexivity|]. split; auto. }
      rewrite Ec. cbn [bind]. destruct (reduce_total nominal cuts points (ev_or io)) with (l := cs) as (g & Eg & Cg); auto.
      { intros; now apply (or_total io nominal cuts points). }
      { intros ->. pose proof (unseen_nonempty (filter all_nonempty sols)) as K. destruct (unseen [] (filter all_nonempty sols)); [|discriminate L]. rewrite Ef in K. apply K; [discriminate|reflexivity]. }
      rewrite Eg. cbn [bind]. destruct (to_dnf_total nominal cuts points g Cg) as (h & -> & Ch & _). cbn [bind]. eexists. split; [reflexivity|]. intros ? [= <-]. exact Ch.
  Qed.
End Fun.

(** ** Conjunctions *)
Section One.
  Context {N : numsys} (io : iterorder N) (po : polyoracle N) (fuel : nat).
  Notation pset := (pset N).
  Notation tr := (tr N).
  Context (nominal : string -> bool) (cuts points : string -> R -> Prop).
  Notation posed := (posed po nominal cuts points).
  Notation lit := (lit po nominal cuts points thin).
  Lemma thin_solve : forall x a v, 2 <= fuel -> lit x a -> solve io po fuel a = Ok v -> not_union v.
  Proof.
    intros x a v Hf [(G & k & u & -> & _)|(G & ((j & t & u & y & -> & Ch & Ca & Sy & Ny & Cy) & Th) & Sx)] Ev.
    - cbn in Ev. injection Ev as <-. destruct u; try exact Logic.I. exact (gev_not_union _ _ _ G).
    - destruct (chained_sort po _ Ch) as (q & j' & t' & v' & Ko & E & Nj & Ct & Fv). injection E as <- <- <-. assert (Nm : q <> Many) by (destruct Ko; congruence).
      unfold solve in Ev. assert (Dd : (exists y, t = TId y) \/ id_values (EBasic j t u) = None) by (destruct t; eauto). destruct Dd as [(z & ->)|Dd].
      + cbn [id_values] in Ev. injection Ev as <-. destruct (basic_of q u Nm Fv) as [->|(c & ->)]; exact Logic.I.
      + rewrite Dd in Ev. cbn [symbols] in Ev. rewrite Sy in Ev. cbn [List.length Nat.ltb Nat.leb] in Ev. rewrite invert_basic in Ev by (auto; lia). destruct (narrow_basic io po fuel t q u v Th Ct Nm Fv Ev) as [->|(c & ->)]; exact Logic.I.
  Qed.
  Lemma slot_solve : forall x a v, 2 <= fuel -> slot po nominal cuts points thin x a -> solve io po fuel a = Ok v -> not_union v.
  Proof.
    intros x a v Hf [L|J] Ev; [now apply (thin_solve x a)|]. destruct (solve_joined io po fuel nominal cuts points x a Hf J) as (w & E & _ & _ & _ & B). rewrite Ev in E. injection E as <-. destruct B as [->|(c & ->)]; exact Logic.I.
  Qed.
  Lemma posed_one : forall e d, 2 <= fuel -> posed e -> Forall thin (lits e) -> conjunctive e -> dnf_normalize io po fuel e = Ok (Some d) -> one_clause d.
  Proof.
    intros e d Hf P Th Cj H. assert (Mk : marked nominal cuts points thin e) by (eapply Forall_impl; [|exact Th]; auto).
    destruct (dnf_normalize_cases io po fuel e) as [(k & x & v & -> & E)|E]; rewrite E in H; clear E.
    - injection H as <-. now left.
    - unfold normalize_general in H. destruct (posed_factor io po nominal cuts points thin e P Mk) as (r & f & E & E0 & Nf & Ff). rewrite E in H. cbn [bind] in H. pose proof (to_dnf_one e r Cj E) as O1. rewrite E0 in H. cbn [bind] in H. pose proof (factor_one io r f O1 E0) as L.
      destruct f as [|c [|c' f]]; try discriminate L. inversion Ff as [|? ? Lc _]; subst. destruct (solve_lits io po fuel nominal cuts points thin c Hf Lc) as (s & Es & Cs). cbn [mapM] in H. rewrite Es in H. cbn [bind] in H.
      cbn [filter] in H. destruct (all_nonempty s) eqn:An; [|discriminate H]. cbn [unseen] in H. unfold inb at 1 in H. cbn [existsb] in H. cbn [mapM] in H. inv_bind H. inv_bind E1. injection E1 as <-. cbn [reduceM foldM bind] in H. inv_bind H. injection H as <-.
      refine (to_dnf_one _ _ _ E1). unfold conj_of in E2. inv_bind E2. apply (reduce_conjunctive io r2); auto. apply mapM_Forall2 in E3.
      assert (Nu : Forall (fun p => not_union (snd p)) s).
      { destruct Lc as (_ & Lc). unfold solve_clause in Es. apply mapM_Forall2 in Es. clear -Hf Lc Es. induction Es as [|p q c s H F IH]; constructor; inversion Lc; subst; auto. inv_bind H. injection H as <-. cbn [snd]. eapply slot_solve; eauto. }
      clear -E3 Nu. induction E3 as [|p a c l Hp F IH]; constructor; inversion Nu as [|? ? Np Nu']; subst; auto. destruct (snd p) as [|[]|]; try contradiction; cbn in Hp; injection Hp as <-; exact Logic.I.
  Qed.
End One.
