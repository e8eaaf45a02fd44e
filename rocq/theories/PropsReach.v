(** * PropsReach: the files a schema is made of, through include and external (C86; C33, C57, C69, C70, C72 for files reached by
    external).  No condition on the schema files. *)
From Coq Require Import String.
From Verif Require Import Base Datatype Facets Store Compile Syntax SchemaCompile SourceSpec SchemaSpec SchemaExamples SchemaCheck SchemaReach SchemaGood SchemaShows SchemaTermExt Main.

(** ** C86: [Compiler::loaded] lists exactly the files named by the includes and externals of the files read.
    [Consulted fs name home ds f s] (SchemaReach.v): [f] is read, with contents [s]; names of files in it are relative to [home],
    the prefixes in force are those of [ds]. *)
Theorem C86_files_read : forall O C fs d name r st, compile_grammar O C fs d name = Ok (inl (r, st)) ->
  forall f, In f (loaded st) <-> exists home ds s, Consulted fs name home ds f s.
Proof. exact listed_iff. Qed.
(** a.rnc includes b.rnc and takes d/e.rnc, a bare grammar, which takes q.rnc *)
Definition D (s : string) : path := Path false [lit "d"; lit s].
Definition e_rnc : schema := Schema [] (TGrammar [def "start" (tag "t" (SExternal (lt "q.rnc") None))]).
Definition web : filesys := files [
  (P "a.rnc", Schema [] (TGrammar [GInclude (lt "b.rnc") None None; def "start" (tag "r" (SListPair (ref "x") (SExternal (lt "d/e.rnc") None)))]));
  (P "b.rnc", Schema [] (TGrammar [def "x" (SOptional (SExternal (lt "p.rnc") None))]));
  (D "e.rnc", e_rnc);
  (P "p.rnc", Schema u_decl (TPattern (tag "p" SText)));
  (P "q.rnc", Schema [] (TPattern (tag "q" SText)));
  (D "q.rnc", Schema [] (TPattern (tag "other" SText)));
  (P "z.rnc", Schema [] (TPattern SEmpty))].
Example C86_instance O C : exists r st, compile_grammar O C web 5 (P "a.rnc") = Ok (inl (r, st)) /\ loaded st = [P "a.rnc"; P "b.rnc"; P "p.rnc"; D "e.rnc"; P "q.rnc"].
Proof. eexists _, _. split; vm_compute; reflexivity. Qed.
Example C86_consulted : Consulted web (P "a.rnc") (P "a.rnc") [] (D "e.rnc") e_rnc /\ Consulted web (P "a.rnc") (P "p.rnc") [] (P "p.rnc") (Schema u_decl (TPattern (tag "p" SText))).
Proof.
  assert (HA : Consulted web (P "a.rnc") (P "a.rnc") [] (P "a.rnc") (Schema [] (TGrammar [GInclude (lt "b.rnc") None None; def "start" (tag "r" (SListPair (ref "x") (SExternal (lt "d/e.rnc") None)))]))) by exact (Co_main web (P "a.rnc") _ eq_refl).
  split.
  - eapply (Co_external_grammar web (P "a.rnc") _ _ _ _ (lt "d/e.rnc")); [exact HA | | reflexivity | reflexivity]. eapply Fo_grammar; [right; left; reflexivity|]. apply Oc_define. eapply Oi_child; [constructor|]. eapply Oi_child; [apply Ch_seq_r | apply Oi_here].
  - eapply (Co_external web (P "a.rnc") _ _ _ _ (lt "p.rnc")); [eapply (Co_include web (P "a.rnc") _ _ _ _ (lt "b.rnc")); [exact HA | eapply If_grammar; [left; reflexivity | constructor] | reflexivity | reflexivity]| |reflexivity | reflexivity].
    eapply Fo_grammar; [left; reflexivity|]. apply Oc_define. eapply Oi_child; [constructor | apply Oi_here].
Qed.
(** the name q.rnc in d/e.rnc means d/q.rnc; another file is read in its place *)
Theorem C86_relative_refuted : exists fs name f h f' s s', fs f = inl s /\ file_occurs (SExternal h None) s /\ resolve f (lit_value h) = Some f' /\ fs f' = inl s' /\
  forall O C, exists r st, compile_grammar O C fs 5 name = Ok (inl (r, st)) /\ In f (loaded st) /\ ~ In f' (loaded st).
Proof.
  exists web, (P "a.rnc"), (D "e.rnc"), (lt "q.rnc"), (D "q.rnc"), e_rnc, (Schema [] (TPattern (tag "other" SText))). split; [reflexivity|]. split.
  { eapply Fo_grammar; [left; reflexivity|]. apply Oc_define. eapply Oi_child; [constructor | apply Oi_here]. }
  split; [reflexivity|]. split; [reflexivity|]. intros O C. destruct (C86_instance O C) as (r & st & E & El). exists r, st. split; [exact E|]. rewrite El. split; [do 3 right; left; reflexivity|].
  intros H. repeat (destruct H as [H|H]; [discriminate H|]). exact H.
Qed.

(** ** C33: no file comes back to itself, by includes and externals ([Leads], SchemaReach.v: [n] steps from [f], whose names are relative to [h]) *)
Theorem C33_no_return : forall O C fs d name r st, compile_grammar O C fs d name = Ok (inl (r, st)) ->
  forall h ds f s n, Consulted fs name h ds f s -> ~ Leads fs (S n) h f h f.
Proof. exact no_return. Qed.
(** ... and compilation ends, if the files are finitely many and no bare grammar comes back to itself by externals ([Bare]).
    Missing: such a bare grammar ([C42_external_loop_refuted]), and file names that grow ([C33_names_refuted]). *)
Theorem C33_terminates_external_partial : forall O C fs L name, closed_files fs L -> (forall home f n, In home L -> In f L -> ~ Bare fs home (S n) f f) -> In name L ->
  exists r, r <> OutOfFuel /\ settles (fun d => compile_grammar O C fs d name) r.
Proof. exact compile_terminates_external. Qed.
(** a pattern that takes itself, through another one: reported *)
Definition rope : filesys := files [
  (P "a.rnc", Schema [] (TPattern (tag "r" (SOptional (SExternal (lt "b.rnc") None)))));
  (P "b.rnc", Schema [] (TPattern (tag "r" (SOptional (SExternal (lt "a.rnc") None)))))].
Example C33_return_instance O C : Leads rope 2 (P "a.rnc") (P "a.rnc") (P "a.rnc") (P "a.rnc") /\ exists e, compile_grammar O C rope 5 (P "a.rnc") = ferr e.
Proof.
  split; [|eexists; vm_compute; reflexivity].
  eapply (Ld_external rope 1 _ _ _ (lt "b.rnc") None); [reflexivity | apply Fo_pattern; eapply Oi_child; [constructor|]; eapply Oi_child; [constructor | apply Oi_here] | reflexivity | reflexivity|].
  eapply (Ld_external rope 0 _ _ _ (lt "a.rnc") None); [reflexivity | apply Fo_pattern; eapply Oi_child; [constructor|]; eapply Oi_child; [constructor | apply Oi_here] | reflexivity | reflexivity | constructor].
Qed.
Example C33_terminates_instance : closed_files rope [P "a.rnc"; P "b.rnc"] /\ (forall home f n, ~ Bare rope home (S n) f f).
Proof.
  assert (HX : forall h s, (exists f, rope f = inl s) -> file_occurs (SExternal h None) s -> h = lt "a.rnc" \/ h = lt "b.rnc").
  { intros h s (f & Hs) Ho. apply files_in in Hs. destruct Hs as [[= <- <-]|[[= <- <-]|[]]]; inversion Ho as [|? ? Hp]; subst; inversion Hp as [|? ? Hc Hq|]; subst; inversion Hc; subst;
      inversion Hq as [|? ? Hc' Hq'|]; subst; inversion Hc'; subst; inversion Hq' as [|? ? Hc2 ?|]; subst; auto; inversion Hc2. }
  split.
  - intros home f s Hh Hf Hs. split.
    + intros h f' Hi _. exfalso. apply files_in in Hs. destruct Hs as [[= <- <-]|[[= <- <-]|[]]]; inversion Hi as [|? ? ? Hp]; subst; inversion Hp as [? ? ? Hc Hq|]; subst; inversion Hc; subst;
        inversion Hq as [? ? ? Hc' Hq'|]; subst; inversion Hc'; subst; inversion Hq' as [? ? ? Hc2 ?|]; subst; inversion Hc2.
    + intros h f' Ho Hr. destruct Hh as [<-|[<-|[]]]; (destruct (HX h s (ex_intro _ f Hs) Ho) as [-> | ->]; injection Hr as <-; cbn; auto).
  - intros home f n HB. inversion HB as [|? ? s l f1 ds k ? _ _ _ Hs1 _]; subst. apply files_in in Hs1. destruct Hs1 as [K|[K|[]]]; discriminate K.
Qed.

(** ** C69: datatypes and their parameters, in every file read *)
Theorem C69_data_checked_everywhere : forall O C fs d name r st, compile_grammar O C fs d name = Ok (inl (r, st)) ->
  forall home ds f s, Consulted fs name home ds f s -> forall n ps ex, file_occurs (SData n ps ex) s -> exists dn x, dt_meant fs name n dn /\ Facets.datatype_name O C dn (values_of ps) = Ok (inl x).
Proof. intros O C fs d name r st H home ds f s HC n ps ex Ho. destruct (consulted_fine O C fs name d r st H home ds f s HC) as (d' & K & _). exact (K _ Ho). Qed.
Theorem C69_value_checked_everywhere : forall O C fs d name r st, compile_grammar O C fs d name = Ok (inl (r, st)) ->
  forall home ds f s, Consulted fs name home ds f s -> forall n v, file_occurs (SValue n v) s -> exists dn x, dt_meant fs name (match n with Some n => n | None => SdToken end) dn /\ Facets.datatype_value dn (lit_value v) = Ok (inl x).
Proof. intros O C fs d name r st H home ds f s HC n v Ho. destruct (consulted_fine O C fs name d r st H home ds f s HC) as (d' & K & _). exact (K _ Ho). Qed.
(** ** C70: namespace prefixes, in every file read: [xml], declared by the declarations in force there, or named by an [inherit] *)
Theorem C70_prefixes_declared_everywhere : forall O C fs d name r st, compile_grammar O C fs d name = Ok (inl (r, st)) ->
  forall home ds f s, Consulted fs name home ds f s -> forall nc q p, file_occurs (SElement nc q) s \/ file_occurs (SAttribute nc q) s -> uses_prefix p nc -> ns_reached fs name ds p.
Proof. intros O C fs d name r st H home ds f s HC nc q p Ho Hp. destruct (consulted_fine O C fs name d r st H home ds f s HC) as (d' & K & _). destruct Ho as [Ho|Ho]; [exact (K _ Ho p Hp) | exact (proj1 (K _ Ho) p Hp)]. Qed.
(** ** C57: no element is written inside an attribute, in any file read.  Missing: as for [C57_no_element_in_attribute_partial] *)
Theorem C57_no_element_in_attribute_everywhere_partial : forall O C fs d name r st, compile_grammar O C fs d name = Ok (inl (r, st)) ->
  forall home ds f s, Consulted fs name home ds f s -> forall nc p, file_occurs (SAttribute nc p) s -> forall nc' x, ~ part (SElement nc' x) p.
Proof. intros O C fs d name r st H home ds f s HC nc p Ho. destruct (consulted_fine O C fs name d r st H home ds f s HC) as (d' & K & _). exact (proj1 (proj2 (K _ Ho))). Qed.
(** ** C57: nor is one reached inside an attribute through external patterns, however many files are between.  Missing: an element reached through a name or
    a grammar ([C57_reference_refuted]), and the other prohibited paths ([C57_prohibited_refuted]) *)
Theorem C57_no_element_in_attribute_external_partial : forall O C fs d name r st, compile_grammar O C fs d name = Ok (inl (r, st)) ->
  forall home ds f s, Consulted fs name home ds f s -> forall nc p, file_occurs (SAttribute nc p) s -> ~ Shows fs home p.
Proof. intros O C fs d name r st. exact (no_element_shown O C fs name d r st). Qed.
(** a.rnc has an attribute with the external pattern p.rnc, which has the external pattern q.rnc, which is an element *)
Definition hidden : filesys := files [(P "a.rnc", Schema [] (TGrammar [def "start" (tag "a" (SAttribute (id "k") (SExternal (lt "p.rnc") None)))]));
  (P "p.rnc", Schema [] (TPattern (SChoicePair SText (SExternal (lt "q.rnc") None)))); (P "q.rnc", Schema [] (TPattern (tag "x" SText)))].
Example C57_instance_external O C d r st : compile_grammar O C hidden d (P "a.rnc") <> Ok (inl (r, st)).
Proof.
  intros H. eapply (C57_no_element_in_attribute_external_partial O C hidden d _ r st H _ _ _ _ (Co_main hidden (P "a.rnc") _ eq_refl)).
  - eapply Fo_grammar; [left; reflexivity|]. apply Oc_define. eapply Oi_child; [constructor | apply Oi_here].
  - eapply (Sh_external hidden _ _ _ (P "p.rnc")); [reflexivity | reflexivity|]. eapply Sh_child; [apply Ch_choice_r|].
    eapply (Sh_external hidden _ _ _ (P "q.rnc")); [reflexivity | reflexivity | apply Sh_here].
Qed.
Example C57_external_error O C : compile_grammar O C hidden 5 (P "a.rnc") = Ok (inr (EInclude (EInclude EElementAsChildOfAttribute))).
Proof. vm_compute. reflexivity. Qed.
(** ** C72: each include and external in every file read names a file that can be read; an included file is a grammar *)
Theorem C72_files_exist_everywhere : forall O C fs d name r st, compile_grammar O C fs d name = Ok (inl (r, st)) ->
  forall home ds f s, Consulted fs name home ds f s ->
  (forall h, in_file h s -> exists f' s' l, resolve home (lit_value h) = Some f' /\ fs f' = inl s' /\ file_contents s' l) /\
  (forall h i, file_occurs (SExternal h i) s -> i = None /\ exists f' s', resolve home (lit_value h) = Some f' /\ fs f' = inl s').
Proof.
  intros O C fs d name r st H home ds f s HC. destruct (consulted_fine O C fs name d r st H home ds f s HC) as (d' & K1 & K2). split.
  - intros h Hi. destruct (K2 h Hi) as (f' & s' & l & A & B & E & _). exists f', s', l. auto.
  - intros h i Ho. destruct (K1 _ Ho) as (-> & f' & s' & A & B & _). split; [reflexivity|]. exists f', s'. auto.
Qed.
(** the file the external in d/e.rnc names is missing: refused *)
Definition torn : filesys := fun f => if path_eqb f (P "q.rnc") then inr 0 else web f.
Example C72_instance_everywhere O C d r st : compile_grammar O C torn d (P "a.rnc") <> Ok (inl (r, st)).
Proof.
  intros H. assert (HA : Consulted torn (P "a.rnc") (P "a.rnc") [] (D "e.rnc") e_rnc).
  { eapply (Co_external_grammar torn (P "a.rnc") _ _ _ _ (lt "d/e.rnc")); [exact (Co_main torn (P "a.rnc") _ eq_refl) | | reflexivity | reflexivity]. eapply Fo_grammar; [right; left; reflexivity|]. apply Oc_define. eapply Oi_child; [constructor|]. eapply Oi_child; [apply Ch_seq_r | apply Oi_here]. }
  destruct (proj2 (C72_files_exist_everywhere O C torn d _ r st H _ _ _ _ HA) (lt "q.rnc") None) as (_ & f' & s' & Hr & Hs).
  - eapply Fo_grammar; [left; reflexivity|]. apply Oc_define. eapply Oi_child; [constructor | apply Oi_here].
  - injection Hr as <-. discriminate Hs.
Qed.

Print Assumptions C86_files_read.
Print Assumptions C86_relative_refuted.
Print Assumptions C33_no_return.
Print Assumptions C33_terminates_external_partial.
Print Assumptions C69_data_checked_everywhere.
Print Assumptions C69_value_checked_everywhere.
Print Assumptions C70_prefixes_declared_everywhere.
Print Assumptions C57_no_element_in_attribute_everywhere_partial.
Print Assumptions C57_no_element_in_attribute_external_partial.
Print Assumptions C72_files_exist_everywhere.
