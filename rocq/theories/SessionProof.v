(** * SessionProof: each call answers as a fresh compiler would on one fixed state of the files (C87). *)
From Coq Require Import String.
From Verif Require Import Base Datatype Facets Store Compile Syntax SchemaCompile SourceCompile SchemaLocal Session.

#[local] Hint Resolve q_ret q_err q_panic q_table q_ovr q_get_ovr q_mark q_insert q_acquire q_define_in q_get_ref q_take q_undefined q_lift q_check_include q_recursion q_acquire_impl q_acquire_ref q_define q_nameclass q_dtname q_declaration q_parent q_declarations q_new_element q_new_include q_new_grammar q_path q_inherit q_overrides q_take_start : quiet.
Ltac qt := repeat first [ apply q_bind; [|intros] | progress auto with quiet | match goal with |- quiet (match ?x with _ => _ end) => destruct x end | match goal with |- quiet (if ?x then _ else _) => destruct x end ].
Section Proof.
Variable O : oracles.
Variable C : coracles.
Variable disk : nat -> filesys.
Notation keys w := (map fst (cache w)).

Definition failed {A} (r : fres rerror A) : Prop := forall a, r <> fok a.
(** a file system in which the files read so far have the contents they were read with, and, after a failure, the others are as at the last reading *)
Definition shows {A} (r : fres rerror A) (w w' : world) (fs : filesys) : Prop :=
  (forall f s, In (f, s) (cache w') -> fs f = inl s) /\ (failed r -> clock w < clock w' -> forall f, ~ In f (keys w') -> fs f = disk (pred (clock w')) f).
Definition grows (w w' : world) : Prop :=
  clock w <= clock w' /\ incl (cache w) (cache w') /\ (forall f s, In (f, s) (cache w') -> In (f, s) (cache w) \/ exists t, clock w <= t < clock w' /\ disk t f = inl s) /\
  (NoDup (keys w) -> NoDup (keys w')).
Definition lists (st : cst) (w : world) (st' : cst) (w' : world) : Prop :=
  incl (loaded st) (loaded st') /\ (forall f, In f (loaded st') -> In f (loaded st) \/ In f (keys w')) /\ (forall f, In f (keys w') -> In f (keys w) \/ In f (loaded st')).
Definition sim {A} (m : DM A) (ms : filesys -> CM A) : Prop := forall w st r w', m w st = (r, w') ->
  grows w w' /\ (forall fs, shows r w w' fs -> ms fs st = r) /\ forall a st', r = fok (a, st') -> lists st w st' w'.

Lemma grows_refl w : grows w w.
Proof. split; [lia|]. split; [apply incl_refl|]. split; [auto | auto]. Qed.
Lemma grows_trans w1 w2 w3 : grows w1 w2 -> grows w2 w3 -> grows w1 w3.
Proof.
  intros (a1 & a2 & a3 & a4) (b1 & b2 & b3 & b4). split; [lia|]. split; [eapply incl_tran; eassumption|]. split; [|auto].
  intros f s H. apply b3 in H. destruct H as [H|(t & Ht & E)]; [|right; exists t; split; [lia | exact E]]. apply a3 in H. destruct H as [H|(t & Ht & E)]; [left; exact H | right; exists t; split; [lia | exact E]].
Qed.
Lemma grows_keys w w' : grows w w' -> incl (keys w) (keys w').
Proof. intros (_ & H & _). apply incl_map. exact H. Qed.
Lemma lists_trans st w st1 w1 st2 w2 : grows w1 w2 -> lists st w st1 w1 -> lists st1 w1 st2 w2 -> lists st w st2 w2.
Proof.
  intros G (a1 & a2 & a3) (b1 & b2 & b3). split; [eapply incl_tran; eassumption|]. split.
  - intros f H. apply b2 in H. destruct H as [H|H]; [|auto]. apply a2 in H. destruct H as [H|H]; [auto | right; apply (grows_keys _ _ G); exact H].
  - intros f H. apply b3 in H. destruct H as [H|H]; [|auto]. apply a3 in H. destruct H as [H|H]; auto.
Qed.
Lemma sim_once {A} (m : CM A) : quiet m -> sim (once m) (fun _ => m).
Proof.
  intros Hq w st r w' H. injection H as <- <-. split; [apply grows_refl|]. split; [reflexivity|]. intros a st' E. apply Hq in E. unfold lists. rewrite E.
  split; [apply incl_refl|]. split; auto.
Qed.
Lemma sim_bind {A B} (m : DM A) (f : A -> DM B) ms fss : sim m ms -> (forall a, sim (f a) (fun fs => fss fs a)) -> sim (dbind m f) (fun fs => cbind (ms fs) (fss fs)).
Proof.
  intros Hm Hf w st r w' H. unfold dbind in H. destruct (m w st) as [r1 w1] eqn:E1. destruct (Hm _ _ _ _ E1) as (G1 & S1 & L1). unfold cbind.
  destruct r1 as [[[a st1]|e]|p|].
  - destruct (Hf a _ _ _ _ H) as (G2 & S2 & L2). split; [eapply grows_trans; eassumption|]. split.
    + intros fs [K1 K2]. rewrite (S1 fs).
      * cbn [fbind rbind]. apply S2. split; [assumption|]. intros K3 K4. apply K2; [exact K3|]. destruct G1 as (G1 & _). lia.
      * split; [|intros K; exfalso; eapply K; reflexivity]. intros g s Hg. apply K1. destruct G2 as (_ & G2 & _). apply G2. exact Hg.
    + intros b st' Er. eapply lists_trans; [exact G2 | eapply L1; reflexivity | eapply L2; exact Er].
  - injection H as <- <-. split; [exact G1|]. split; [|intros; discriminate]. intros fs [K1 K2]. rewrite (S1 fs); [reflexivity|]. split; [exact K1|]. intros _. apply K2. intros x; discriminate.
  - injection H as <- <-. split; [exact G1|]. split; [|intros; discriminate]. intros fs [K1 K2]. rewrite (S1 fs); [reflexivity|]. split; [exact K1|]. intros _. apply K2. intros x; discriminate.
  - injection H as <- <-. split; [exact G1|]. split; [|intros; discriminate]. intros fs [K1 K2]. rewrite (S1 fs); [reflexivity|]. split; [exact K1|]. intros _. apply K2. intros x; discriminate.
Qed.
Lemma sim_map {A} e (m : DM A) ms : sim m ms -> sim (dmap_err e m) (fun fs => cmap_err e (ms fs)).
Proof.
  intros Hm w st r w' H. unfold dmap_err in H. destruct (m w st) as [r1 w1] eqn:E1. injection H as <- <-. destruct (Hm _ _ _ _ E1) as (G1 & S1 & L1). split; [exact G1|]. split.
  - intros fs [K1 K2]. unfold cmap_err. rewrite (S1 fs); [reflexivity|]. split; [exact K1|]. intros K. apply K2. intros a Ha. destruct r1 as [[x|x]|x|]; try discriminate Ha. eapply K; reflexivity.
  - intros a st' Er. destruct r1 as [[x|x]|x|]; try discriminate Er. injection Er as ->. apply L1 with (a := a). reflexivity.
Qed.
Lemma sim_iter {A} (f : A -> DM unit) (fss : filesys -> A -> CM unit) l : Forall (fun x => sim (f x) (fun fs => fss fs x)) l -> sim (diter f l) (fun fs => citer (fss fs) l).
Proof.
  induction 1 as [|x l Hx Hl IH]; cbn [diter citer]; [apply (sim_once (cret tt)), q_ret|]. apply sim_bind; [exact Hx | intros _; exact IH].
Qed.
Lemma cached_in f l s : cached f l = Some s -> In (f, s) l.
Proof.
  induction l as [|[g u] l IH]; [discriminate|]. cbn [cached]. destruct (path_eqb g f) eqn:E; [|right; auto]. intros [= ->]. unfold path_eqb in E. destruct (path_eq_dec g f); [subst; left; reflexivity | discriminate].
Qed.
Lemma cached_none f l : cached f l = None <-> ~ In f (map fst l).
Proof.
  induction l as [|[g u] l IH]; cbn [cached map fst In]; [tauto|]. unfold path_eqb. destruct (path_eq_dec g f); [split; [discriminate | intros K; exfalso; apply K; auto]|]. rewrite IH. tauto.
Qed.
Lemma sim_get f : sim (dget disk f) (fun fs => get_schema fs f).
Proof.
  intros w st r w' H. unfold dget in H. destruct (cached f (cache w)) as [s|] eqn:Ec; [|destruct (disk (clock w) f) as [s|e] eqn:Ed]; injection H as <- <-.
  - apply cached_in in Ec. split; [apply grows_refl|]. split.
    + intros fs [K _]. unfold get_schema. rewrite (K _ _ Ec). reflexivity.
    + intros a st' [= _ <-]. unfold lists. cbn [loaded]. destruct (in_dec path_eq_dec f (loaded st)) as [Hi|Hi]; [split; [apply incl_refl|]; split; auto|].
      split; [apply incl_appl, incl_refl|]. split; intros g Hg; [|auto]. apply in_app_iff in Hg. destruct Hg as [Hg|[<-|[]]]; [auto|]. right. apply (in_map fst) in Ec. exact Ec.
  - apply cached_none in Ec. split; [|split].
    + split; [cbn; lia|]. split; [apply incl_tl, incl_refl|]. split; [|intros N; cbn [cache map fst]; constructor; assumption].
      intros g u [Hg|Hg]; [|left; exact Hg]. injection Hg as <- <-. right. exists (clock w). cbn [clock]. split; [lia | exact Ed].
    + intros fs [K _]. unfold get_schema. rewrite (K f s); [reflexivity | left; reflexivity].
    + intros a st' [= _ <-]. unfold lists. cbn [loaded cache map fst]. destruct (in_dec path_eq_dec f (loaded st)) as [Hi|Hi].
      * split; [apply incl_refl|]. split; [auto|]. intros g [<-|Hg]; auto.
      * split; [apply incl_appl, incl_refl|]. split; intros g Hg.
        -- apply in_app_iff in Hg. destruct Hg as [Hg|[<-|[]]]; [auto | right; left; reflexivity].
        -- destruct Hg as [<-|Hg]; [right; apply in_or_app; right; left; reflexivity | left; exact Hg].
  - apply cached_none in Ec. split; [|split].
    + split; [cbn; lia|]. split; [apply incl_refl|]. split; auto.
    + intros fs [_ K]. unfold get_schema. rewrite (K (fun a => ltac:(discriminate)) (Nat.lt_succ_diag_r _) f Ec). cbn [clock pred]. rewrite Ed. reflexivity.
    + intros a st' Er; discriminate Er.
Qed.

Section Rec.
Variables (rp : ctx -> spat -> DM mpat) (rps : filesys -> ctx -> spat -> CM mpat) (ri : ctx -> list gcontent -> DM unit) (ris : filesys -> ctx -> list gcontent -> CM unit).
Hypothesis Hp : forall c p, sim (rp c p) (fun fs => rps fs c p).
Hypothesis Hi : forall c l, sim (ri c l) (fun fs => ris fs c l).
Notation P1 := (dpattern O C disk rp ri).
Notation P2 := (fun fs => compile_pattern O C fs (rps fs) (ris fs)).
Notation G1 := (dcontent O C disk rp ri).
Notation G2 := (fun fs => compile_content O C fs (rps fs) (ris fs)).
Notation V1 := (doverride O C disk rp ri).
Notation V2 := (fun fs => compile_override O C fs (rps fs) (ris fs)).
Ltac sq := match goal with |- sim (once ?m) _ => apply (sim_once m); qt end.
Lemma sim_schema c s (cp : ctx -> spat -> DM mpat) cps (ci : ctx -> list gcontent -> DM unit) cis :
  (forall c p, sim (cp c p) (fun fs => cps fs c p)) -> (forall c l, sim (ci c l) (fun fs => cis fs c l)) -> sim (dschema_with cp ci c s) (fun fs => compile_schema_with (cps fs) (cis fs) c s).
Proof.
  intros Hcp Hci. unfold dschema_with, compile_schema_with. apply sim_bind; [sq|]. intros c'. destruct (s_top s) as [p|l].
  - destruct (is_include c').
    + destruct p; try sq. apply sim_bind; [apply Hci | intros; sq].
    + apply sim_bind; [apply Hcp | intros; apply sim_bind; [sq | intros; sq]].
  - apply sim_bind; [apply Hci | intros; sq].
Qed.
Notation SP := (fun p => forall c, sim (P1 c p) (fun fs => P2 fs c p)).
Notation SG := (fun g => forall c, sim (G1 c g) (fun fs => G2 fs c g)).
Notation SV := (fun i => forall c, sim (V1 c i) (fun fs => V2 fs c i)).
Lemma same : (forall p, SP p) /\ (forall g, SG g) /\ (forall i, SV i).
Proof.
  assert (H_ex : forall h i, SP (SExternal h i)).
  { intros h i c. cbn [dpattern SchemaCompile.compile_pattern]. destruct i; [sq|]. apply sim_bind; [sq|]. intros f. apply sim_bind; [apply sim_map, sim_get|]. intros s.
    apply sim_bind; [sq|]. intros inc. destruct (s_top s); [apply sim_map, Hp|]. apply sim_bind; [sq|]. intros. apply sim_bind; [apply Hi|]. intros. apply sim_bind; [sq|]. intros [n|]; sq. }
  assert (H_gr : forall l, Forall SG l -> SP (SGrammar l)).
  { intros l Hl c. cbn [dpattern SchemaCompile.compile_pattern]. apply sim_bind; [sq|]. intros g. apply sim_bind; [|intros; sq].
    apply (sim_iter _ (fun fs => G2 fs g)). eapply Forall_impl; [|exact Hl]. cbn. auto. }
  assert (H_da : forall n ps ex, (match ex with Some e => SP e | None => True end) -> SP (SData n ps ex)).
  { intros n ps ex IH c. cbn [dpattern SchemaCompile.compile_pattern]. do 2 (apply sim_bind; [sq|]; intros). apply sim_bind; [|intros; sq].
    destruct ex as [e|]; [|sq]. apply (sim_bind _ _ (fun fs => P2 fs c e)); [apply IH | intros; sq]. }
  assert (H_gi : forall h i ov, (match ov with Some l => Forall SV l | None => True end) -> SG (GInclude h i ov)).
  { intros h i ov Hov c. cbn [dcontent SchemaCompile.compile_content]. apply sim_bind; [sq|]; intros f. apply sim_bind; [apply sim_map, sim_get|]; intros s. do 2 (apply sim_bind; [sq|]; intros). apply sim_bind.
    - destruct ov as [l|]; [|sq]. apply (sim_iter _ (fun fs i => cmap_err EInclude (V2 fs _ i))). eapply Forall_impl; [|exact Hov]. cbn. intros x Hx. apply sim_map, Hx.
    - intros. apply sim_bind; [apply sim_map, sim_schema; assumption | intros; sq]. }
  assert (H_gv : forall l, Forall SG l -> SG (GDiv l)).
  { intros l Hl c. cbn [dcontent SchemaCompile.compile_content]. apply (sim_iter _ (fun fs => G2 fs c)). eapply Forall_impl; [|exact Hl]. cbn. auto. }
  assert (H1 : forall p, SP p).
  { apply (spat_ind' SP SG SV); auto; intros; cbn [dpattern SchemaCompile.compile_pattern dcontent SchemaCompile.compile_content doverride SchemaCompile.compile_override];
    repeat first [match goal with H : forall c, sim _ _ |- _ => apply H end | sq; fail | apply sim_bind; [|intros]]. }
  assert (H3 : forall i, SV i).
  { intros [n h p|l|a] c; cbn [doverride SchemaCompile.compile_override]; try sq. apply sim_bind; [apply H1 | intros; sq]. }
  split; [exact H1|]. split; [|exact H3].
  apply (gcontent_ind' SP SG SV); auto; intros; cbn [dcontent SchemaCompile.compile_content]; try sq. apply sim_bind; [apply H1 | intros; sq].
Qed.
Lemma same_contents c l : sim (dcontents O C disk rp ri c l) (fun fs => compile_contents O C fs (rps fs) (ris fs) c l).
Proof. unfold dcontents, compile_contents. apply (sim_iter _ (fun fs => G2 fs c)). apply Forall_forall. intros g _. apply same. Qed.
End Rec.
Lemma same_nested d : (forall c p, sim (fst (dnested O C disk d) c p) (fun fs => fst (nested O C fs d) c p)) /\ (forall c l, sim (snd (dnested O C disk d) c l) (fun fs => snd (nested O C fs d) c l)).
Proof.
  induction d as [|d [IH1 IH2]].
  - split; intros c x; apply (sim_once cfuel); intros st a st' E; discriminate E.
  - cbn [dnested nested]. destruct (dnested O C disk d) as [rp ri]. cbn [fst snd] in *.
    assert (E : forall fs, (let (rp0, ri0) := nested O C fs d in (compile_pattern O C fs rp0 ri0, compile_contents O C fs rp0 ri0)) = (compile_pattern O C fs (fst (nested O C fs d)) (snd (nested O C fs d)), compile_contents O C fs (fst (nested O C fs d)) (snd (nested O C fs d)))) by (intros fs; destruct (nested O C fs d); reflexivity).
    split; intros c x w st r w' H.
    + destruct (proj1 (same rp (fun fs => fst (nested O C fs d)) ri (fun fs => snd (nested O C fs d)) IH1 IH2) x c w st r w' H) as (K1 & K2 & K3). split; [exact K1|]. split; [|exact K3]. intros fs Hs. rewrite E. cbn [fst]. apply K2. exact Hs.
    + destruct (same_contents rp (fun fs => fst (nested O C fs d)) ri (fun fs => snd (nested O C fs d)) IH1 IH2 c x w st r w' H) as (K1 & K2 & K3). split; [exact K1|]. split; [|exact K3]. intros fs Hs. rewrite E. cbn [snd]. apply K2. exact Hs.
Qed.
Lemma q_finish c : quiet (finish c).
Proof.
  unfold finish. qt. intros st1 a st2 E1. destruct (nth _ _ _) as [nn [rule|]]; [|discriminate E1].
  destruct (check_refs _ _ _ _) as [[x|e]|p|]; try discriminate E1. injection E1 as _ <-. reflexivity.
Qed.
Theorem one_call d name w r w' : dcompile O C disk d name w = (r, w') ->
  grows w w' /\ (forall fs, shows r w w' fs -> compile_grammar O C fs d name = r) /\ forall a st, r = fok (a, st) -> lists empty_cst w st w'.
Proof.
  intros H. unfold dcompile in H. destruct (same_nested d) as [H1 H2].
  assert (S : sim (dbind (dget disk name) (fun s => dbind (once (new_root name)) (fun c => let (rp, ri) := dnested O C disk d in dbind (dschema_with (dpattern O C disk rp ri) (dcontents O C disk rp ri) c s) (fun c => once (finish c)))))
      (fun fs => cbind (get_schema fs name) (fun s => cbind (new_root name) (fun c => cbind (compile_schema_with (compile_pattern O C fs (fst (nested O C fs d)) (snd (nested O C fs d))) (compile_contents O C fs (fst (nested O C fs d)) (snd (nested O C fs d))) c s) finish)))).
  { apply sim_bind; [apply sim_get|]. intros s. apply (sim_bind _ _ (fun _ => new_root name)); [apply sim_once; unfold new_root; qt|]. intros c.
    destruct (dnested O C disk d) as [rp ri]. cbn [fst snd] in *. apply (sim_bind _ _ _ (fun _ => finish)).
    - apply (sim_schema c s _ (fun fs => compile_pattern O C fs (fst (nested O C fs d)) (snd (nested O C fs d))) _ (fun fs => compile_contents O C fs (fst (nested O C fs d)) (snd (nested O C fs d)))).
      + intros c0 p. apply (proj1 (same rp (fun fs => fst (nested O C fs d)) ri (fun fs => snd (nested O C fs d)) H1 H2)).
      + intros c0 l. apply (same_contents rp (fun fs => fst (nested O C fs d)) ri (fun fs => snd (nested O C fs d)) H1 H2).
    - intros c'. apply sim_once, q_finish. }
  destruct (S _ _ _ _ H) as (K1 & K2 & K3). split; [exact K1|]. split; [|exact K3]. intros fs Hs. rewrite <- (K2 fs Hs). unfold compile_grammar. destruct (nested O C fs d) as [rp ri]. reflexivity.
Qed.
(** ** Histories of one compiler *)
Inductive Later : world -> world -> Prop :=
| Lt_refl w : Later w w
| Lt_wait w k w' : Later (wait k w) w' -> Later w w'
| Lt_call w d name r w1 w' : dcompile O C disk d name w = (r, w1) -> Later w1 w' -> Later w w'.
Lemma grows_wait k w : grows w (wait k w).
Proof. split; [cbn; lia|]. split; [apply incl_refl|]. split; auto. Qed.
Lemma Later_grows w w' : Later w w' -> grows w w'.
Proof.
  induction 1 as [w|w k w' _ IH|w d name r w1 w' H _ IH]; [apply grows_refl | eapply grows_trans; [apply grows_wait | exact IH] | eapply grows_trans; [apply (one_call _ _ _ _ _ H) | exact IH]].
Qed.
Lemma Later_then w0 w d name r w' : Later w0 w -> dcompile O C disk d name w = (r, w') -> Later w0 w'.
Proof. induction 1 as [x|x k x' _ IH|x dd nn rr x1 x' E _ IH]; intros H; [eapply Lt_call; [exact H | apply Lt_refl] | eapply Lt_wait; apply IH; exact H | eapply Lt_call; [exact E | apply IH; exact H]]. Qed.
Lemma Later_nodup t w : Later (new_compiler t) w -> NoDup (keys w).
Proof. intros H. apply Later_grows in H. destruct H as (_ & _ & _ & H). apply H. constructor. Qed.
Lemma cached_unique l f s : NoDup (map fst l) -> In (f, s) l -> cached f l = Some s.
Proof.
  induction l as [|[g u] l IH]; intros N Hin; [destruct Hin|]. cbn [map fst] in N. inversion N as [|? ? Hn N']; subst. cbn [cached]. unfold path_eqb.
  destruct Hin as [E|Hin]; [injection E as -> ->; destruct (path_eq_dec f f); [reflexivity | congruence]|]. destruct (path_eq_dec g f) as [->|_]; [|auto].
  exfalso. apply Hn. apply (in_map fst) in Hin. exact Hin.
Qed.
(** the files as a call has seen them; a file it has not read is as at the last moment *)
Definition seen_by (w w' : world) : filesys := fun f => match cached f (cache w') with Some s => inl s | None => disk (if clock w <? clock w' then pred (clock w') else clock w) f end.
Lemma seen_shows {A} (r : fres rerror A) w w' : NoDup (keys w') -> shows r w w' (seen_by w w').
Proof.
  intros N. split.
  - intros f s Hin. unfold seen_by. rewrite (cached_unique _ _ _ N Hin). reflexivity.
  - intros _ Hlt f Hf. unfold seen_by. apply cached_none in Hf. rewrite Hf. apply Nat.ltb_lt in Hlt. rewrite Hlt. reflexivity.
Qed.
Theorem call_snapshot t0 w d name r w' : Later (new_compiler t0) w -> dcompile O C disk d name w = (r, w') ->
  exists fs, compile_grammar O C fs d name = r /\
    forall f, (exists s, In (f, s) (cache w) /\ fs f = inl s) \/ (~ In f (keys w) /\ exists t, clock w <= t <= clock w' /\ fs f = disk t f).
Proof.
  intros HL H. pose proof (Later_nodup _ _ HL) as N. destruct (one_call _ _ _ _ _ H) as (G & K & _). pose proof G as (G1 & G2 & G3 & G4). specialize (G4 N).
  exists (seen_by w w'). split; [apply K, seen_shows; exact G4|]. intros f. unfold seen_by. destruct (cached f (cache w')) as [s|] eqn:E.
  - pose proof (cached_in _ _ _ E) as Hin. apply G3 in Hin. destruct Hin as [Hin|(t & Ht & Ed)]; [left; exists s; auto|].
    destruct (cached f (cache w)) as [u|] eqn:Eu.
    + apply cached_in in Eu. left. exists u. split; [exact Eu|]. apply G2 in Eu. rewrite (cached_unique _ _ _ G4 Eu) in E. congruence.
    + apply cached_none in Eu. right. split; [exact Eu|]. exists t. split; [lia | congruence].
  - right. apply cached_none in E. split; [intros Hin; apply E; apply (grows_keys _ _ G); exact Hin|]. destruct (clock w <? clock w') eqn:El; [apply Nat.ltb_lt in El; exists (pred (clock w')) | exists (clock w)]; split; lia || reflexivity.
Qed.
(** the cache holds what was read, once and for all *)
Theorem cache_true t0 w : Later (new_compiler t0) w -> forall f s, In (f, s) (cache w) -> exists t, t0 <= t < clock w /\ disk t f = inl s.
Proof. intros H f s Hin. apply Later_grows in H. destruct H as (_ & _ & H & _). apply H in Hin. destruct Hin as [[]|Hin]. exact Hin. Qed.
Theorem history_irrelevant fs : (forall t f, disk t f = fs f) -> forall t0 w d name, Later (new_compiler t0) w -> fst (dcompile O C disk d name w) = compile_grammar O C fs d name.
Proof.
  intros Hd t0 w d name HL. destruct (dcompile O C disk d name w) as [r w'] eqn:H. cbn [fst]. destruct (one_call _ _ _ _ _ H) as (G & K & _).
  symmetry. apply K. split.
  - intros f s Hin. destruct (cache_true t0 w' (Later_then _ _ _ _ _ _ HL H) f s Hin) as (t & _ & E).
    rewrite <- (Hd t). exact E.
  - intros _ _ f _. symmetry. apply Hd.
Qed.
Theorem listed_files t0 w d name r st w' : Later (new_compiler t0) w -> dcompile O C disk d name w = (fok (r, st), w') ->
  NoDup (files_loaded w') /\ forall f, In f (files_loaded w') <-> In f (files_loaded w) \/ In f (loaded st).
Proof.
  intros HL H. pose proof (Later_nodup _ _ HL) as N. destruct (one_call _ _ _ _ _ H) as (G & _ & L). specialize (L _ _ eq_refl). destruct L as (_ & L1 & L2). split; [apply G; exact N|].
  intros f. unfold files_loaded. split; [apply L2|]. intros [Hf|Hf]; [apply (grows_keys _ _ G); exact Hf | destruct (L1 f Hf) as [[]|K]; exact K].
Qed.
(** a call repeated after a success gives the same answer, whatever has become of the files *)
Theorem repeated t0 w d name r st w1 w2 r2 w3 : Later (new_compiler t0) w -> dcompile O C disk d name w = (fok (r, st), w1) -> Later w1 w2 ->
  dcompile O C disk d name w2 = (r2, w3) -> r2 = fok (r, st).
Proof.
  intros HL H HL2 H2. destruct (listed_files _ _ _ _ _ _ _ HL H) as [N1 HF].
  destruct (one_call _ _ _ _ _ H) as (G & K & _). pose proof (Later_grows _ _ HL2) as G2. destruct (one_call _ _ _ _ _ H2) as (G3 & K3 & _).
  assert (N3 : NoDup (keys w3)) by (apply G3, G2; exact N1).
  rewrite <- (K3 _ (seen_shows r2 w2 w3 N3)). pose proof (K _ (seen_shows _ w w1 N1)) as E. apply (compile_local O C _ (seen_by w2 w3)) in E. destruct E as (_ & _ & E & _). apply E.
  intros f Hf. apply or_intror with (A := In f (files_loaded w)) in Hf. apply HF in Hf. unfold files_loaded in Hf. apply in_map_iff in Hf. destruct Hf as ([g s] & <- & Hin). cbn [fst] in *.
  unfold seen_by. rewrite (cached_unique _ _ _ N1 Hin), (cached_unique _ _ s N3); [reflexivity|]. apply G3, G2. exact Hin.
Qed.
End Proof.
