(** * SchemaExamples: schema files that meet the hypotheses of the schema theorems.

    main.rnc
      namespace u = "u"
      start = book
      include "lib.rnc" { name = element name { xsd:NCName } }
      card |= element card { attribute id { "k" }?, name, grammar { start = element x { parent note? } } }
      card |= element leaf { empty }
      note  = element note { text }
      book  = element u:book { card* }
    lib.rnc
      name  = element title { text }
      card |= element other { name }
      div { extra = notAllowed }                                                                      *)
From Coq Require Import Permutation String.
From Verif Require Import Base Datatype Facets Store Compile Syntax SchemaCompile Spec SourceSpec SourceScope SchemaOrder SchemaSpec SchemaMain SchemaDoc SchemaCombine Lang.

Definition id (s : string) : snc := CName (NmId (IKId (lit s))).
Definition lt (s : string) : literal := [lit s].
Definition P (s : string) : path := Path false [lit s].
Definition ref (s : string) : spat := SIdent (lit s).
Definition def (n : string) (p : spat) : gcontent := GDefine (lit n) MAssign p.
Definition or_def (n : string) (p : spat) : gcontent := GDefine (lit n) MChoiceC p.
Definition tag (n : string) (p : spat) : spat := SElement (id n) p.

(** a file system given by a list of files *)
Fixpoint files (l : list (path * schema)) : filesys :=
  match l with
  | [] => fun _ => inr 0
  | (f, s) :: l' => fun g => if path_eqb f g then inl s else files l' g
  end.
Lemma files_in l f s : files l f = inl s -> In (f, s) l.
Proof.
  induction l as [|[f' s'] l IH]; cbn; [discriminate|]. unfold path_eqb. destruct (path_eq_dec f' f) as [->|]; intros H; [injection H as ->; auto | auto].
Qed.
Lemma files_are_ok l : Forall (fun x => schema_ok (files l) (fst x) (snd x)) l -> files_ok (files l).
Proof. intros H f s E. apply files_in in E. rewrite Forall_forall in H. apply (H _ E). Qed.
Lemma no_decls : decls_ok [].
Proof. split; [intros p u []|]. intros p u u' [|? ? []|? ? []] H; inversion H as [|? ? []|? ? []]; reflexivity. Qed.
Definition u_decl : list decl := [DNamespace (lit "u") (UUri (lt "u"))].
Lemma u_decl_binds p u : binds_ns u_decl p u -> p = lit "xml" /\ u = xml_uri \/ p = lit "u" /\ u = lit "u".
Proof. intros [|q l [E|[]]|q l [E|[]]]; [left; split; reflexivity | | discriminate E]. right. injection E as <- <-. split; reflexivity. Qed.
Lemma u_decl_ok : decls_ok u_decl.
Proof.
  split; [intros p u [E|[]]; discriminate E|].
  intros p u u' H H'. apply u_decl_binds in H, H'. destruct H as [[-> ->]|[-> ->]], H' as [[E ->]|[E ->]]; try reflexivity; discriminate E.
Qed.

Definition card1 : spat := tag "card" (SListPair (SOptional (SAttribute (id "id") (SValue None (lt "k"))))
   (SListPair (ref "name") (SGrammar [def "start" (tag "x" (SOptional (SParent (lit "note"))))]))).
Definition leaf : spat := tag "leaf" SEmpty.
Definition word : spat := SData (SdC (lit "xsd") (lit "NCName")) None None.
Definition ov : list (str * method * spat) := [(lit "name", MAssign, tag "name" word)].
Definition lib_defs : list (str * method * spat) := [(lit "name", MAssign, tag "title" SText); (lit "card", MChoiceC, tag "other" (ref "name"))].
Definition book : spat := SElement (CName (NmC (lit "u") (lit "book"))) (SZeroOrMore (ref "card")).
Definition rest : list gcontent :=
  [def "start" (ref "book"); or_def "card" card1; or_def "card" leaf; GDiv [def "note" (tag "note" SText)]; def "book" book].
Definition main_rnc : schema := Schema u_decl (TGrammar (GInclude (lt "lib.rnc") None (Some (map as_override ov)) :: rest)).
Definition lib_rnc : schema := Schema u_decl (TGrammar (map as_content lib_defs)).
(** the same, without the include *)
Definition flat_rnc : schema := Schema u_decl (TGrammar (map as_content ov ++ map as_content (kept ov lib_defs) ++ rest)).
(** the same, in reverse order *)
Definition rev_rnc : schema := Schema u_decl (TGrammar (rev (GInclude (lt "lib.rnc") None (Some (map as_override ov)) :: rest))).
(** the same, with the two definitions of card made one *)
Definition one_rnc : schema := Schema u_decl (TGrammar [GInclude (lt "lib.rnc") None (Some (map as_override ov)); def "start" (ref "book");
  or_def "card" (SChoicePair card1 leaf); GDiv [def "note" (tag "note" SText)]; def "book" book]).
Definition ex_files : filesys := files [(P "main.rnc", main_rnc); (P "lib.rnc", lib_rnc); (P "flat.rnc", flat_rnc); (P "rev.rnc", rev_rnc); (P "one.rnc", one_rnc)].
Lemma xsd_ok ds : exists u, binds_dt ds (lit "xsd") u.
Proof. eexists. constructor. Qed.
Lemma ex_files_ok : files_ok ex_files.
Proof. apply files_are_ok. repeat (constructor; [split; [exact u_decl_ok|]; cbn; repeat split; apply xsd_ok|]). constructor. Qed.

(** what they compile to *)
Definition compiled (O : oracles) (C : coracles) (fs : filesys) (f : path) : fres rerror (nat * cst) := compile_grammar O C fs 5 f.
Definition get {A} (r : fres rerror (nat * A)) (d : A) : nat * A := match r with Ok (inl x) => x | _ => (0, d) end.
Ltac compiles := vm_compute; reflexivity.
Definition main_st O C := snd (get (compiled O C ex_files (P "main.rnc")) empty_cst).
Definition main_r O C := fst (get (compiled O C ex_files (P "main.rnc")) empty_cst).
Lemma main_compiles O C : compile_grammar O C ex_files 5 (P "main.rnc") = fok (main_r O C, main_st O C).
Proof. compiles. Qed.
Lemma all_compile O C : forall f, In f ["main.rnc"; "flat.rnc"; "rev.rnc"; "one.rnc"]%string -> exists r st, compile_grammar O C ex_files 5 (P f) = fok (r, st).
Proof. intros f [<-|[<-|[<-|[<-|[]]]]]; eexists _, _; compiles. Qed.

(** ** With [external]
    far.rnc   namespace u = "u"   start = element doc { external "part.rnc", external "gram.rnc" }
    part.rnc  element p { text }
    gram.rnc  namespace u = "u"   start = q   q = element u:q { empty }                          *)
Lemma same_dir_flat a b : same_dir (P a) (P b).
Proof. intros h. destruct h as [|c h]; reflexivity. Qed.
Definition far_rnc : schema := Schema u_decl (TGrammar [def "start" (tag "doc" (SListPair (SExternal (lt "part.rnc") None) (SExternal (lt "gram.rnc") None)))]).
Definition part_rnc : schema := Schema [] (TPattern (tag "p" SText)).
Definition gram_rnc : schema := Schema u_decl (TGrammar [def "start" (ref "q"); def "q" (SElement (CName (NmC (lit "u") (lit "q"))) SEmpty)]).
Definition far_files : filesys := files [(P "far.rnc", far_rnc); (P "part.rnc", part_rnc); (P "gram.rnc", gram_rnc)].
Lemma far_files_ok : files_ok far_files.
Proof.
  apply files_are_ok. change (files _) with far_files.
  repeat (constructor; [split; [exact u_decl_ok || exact no_decls|]; cbn - [far_files]; repeat split|]); [| |constructor].
  - intros g s Hr Hs. injection Hr as <-. injection Hs as <-. cbn. intros p l [].
  - intros g s Hr Hs. injection Hr as <-. injection Hs as <-. split; [reflexivity | exact (same_dir_flat "far.rnc" "gram.rnc")].
Qed.
Lemma far_compiles O C : exists r st, compile_grammar O C far_files 5 (P "far.rnc") = fok (r, st).
Proof. eexists _, _. compiles. Qed.
(** <doc><p>t</p><q xmlns="u"/></doc> *)
Definition far_root : item := Elm (QName None (lit "doc")) [] [Elm (QName None (lit "p")) [] [Txt (lit "t")]; Elm (QName (Some (lit "u")) (lit "q")) [] []].
Lemma far_valid O C : schema_valid far_files O C (P "far.rnc") far_root.
Proof.
  assert (N0 : forall f ds, (forall p u, ~ In (DDefault p u) ds) -> default_ns (FEnv f ds []) []) by (intros f ds H; exact (Dn_inherited (FEnv f ds []) H)).
  assert (Nu : forall f, default_ns (FEnv f u_decl []) []) by (intros f; apply N0; intros p u [E|[]]; discriminate E).
  assert (Nn : forall f, default_ns (FEnv f [] []) []) by (intros f; apply N0; intros p u []).
  eexists. split; [eapply Fg_grammar; [reflexivity|]; apply Ex_define, Ex_nil|].
  eapply SN_choice; [intros d' [<-|[]]; discriminate | left; reflexivity|].
  refine (SM_element _ _ _ _ _ _ _ _ (QName None (lit "doc")) [] _ [] [] _ _ _ (or_introl eq_refl) (or_introl eq_refl)).
  - cbn. split; [apply Nu | reflexivity].
  - split; [intros [E|[E|[]]]; discriminate | cbn; auto].
  - apply SW_1. refine (SM_list _ _ _ _ _ _ [] [] [] [_] [_] _ _ (Permutation_refl _) _ _).
    + eapply SM_external; [apply (External_file _ _ _ _ (P "part.rnc") part_rnc []); [reflexivity | reflexivity | apply Nu]|].
      refine (SM_element _ _ _ _ _ _ _ _ (QName None (lit "p")) [] _ [] [] _ _ _ (or_introl eq_refl) (or_introl eq_refl)); [split; [apply Nn | reflexivity] | split; [intros [E|[]]; discriminate | cbn; auto]|].
      apply SW_1, SM_text. repeat constructor. eexists; reflexivity.
    + eapply SM_external; [apply (External_file _ _ _ _ (P "gram.rnc") gram_rnc []); [reflexivity | reflexivity | apply Nu]|].
      eapply SM_grammar; [apply Ex_define, Ex_define, Ex_nil|]. eapply SN_choice; [intros d' [<-|[]]; discriminate | left; reflexivity|].
      apply SM_ident. eapply SN_choice; [intros d' [<-|[]]; discriminate | left; reflexivity|].
      refine (SM_element _ _ _ _ _ _ _ _ (QName (Some (lit "u")) (lit "q")) [] _ [] [] _ _ _ (or_introl eq_refl) (or_introl eq_refl)); [split; [|reflexivity] | split; [intros [] | exact I]|].
      * exact (Bn_ns u_decl (lit "u") (lt "u") (or_introl eq_refl)).
      * apply SW_1, SM_empty.
Qed.

(** ** The schema of Examples.v as a file:
      namespace u = "u"
      start = element book { card* }
      card = element card { attribute id { token }?, (element name { text } & element u:nums { list { xsd:int+ } }?), card* } *)
From Verif Require Import Deriv Events Lang Doc Accept Schema Scope Infoset Main Verdicts Examples.
Definition src_rnc : schema := Schema u_decl (TGrammar [
  def "start" (tag "book" (SZeroOrMore (ref "card")));
  def "card" (tag "card" (SListPair (SOptional (SAttribute (id "id") (SData SdToken None None)))
    (SListPair (SInterleavePair (tag "name" SText) (SOptional (SElement (CName (NmC (lit "u") (lit "nums"))) (SList (SOneOrMore (SData (SdC (lit "xsd") (lit "int")) None None))))))
      (SZeroOrMore (ref "card")))))]).
Definition src_files : filesys := files [(P "cards.rnc", src_rnc)].
Lemma src_files_ok : files_ok src_files.
Proof. apply files_are_ok. repeat (constructor; [split; [exact u_decl_ok|]; cbn; repeat split; apply xsd_ok|]). constructor. Qed.
Definition src_st : cst := Cst [(lit "card", Some (AssignCombine None card)); (lit "start", Some (AssignCombine None ex_start))]
  [[(lit "card", 0); (lit "start", 1)]] [] [P "cards.rnc"].
Lemma src_compiles O C : compile_grammar O C src_files 5 (P "cards.rnc") = fok (1, src_st).
Proof. vm_compute. reflexivity. Qed.
Definition src_defs : list mpat := [card; ex_start].
Lemma src_simple : simple_form src_defs.
Proof. intros [|[|[|r]]] X E; cbn in E; try discriminate; injection E as <-; unfold card, ex_start; eauto. Qed.
Lemma src_single : single_atts src_defs (MRef 0).
Proof. apply Sa_no. eapply No_ref; [reflexivity | apply No_elem]. Qed.
Lemma src_ct t : t <> TE -> CT src_defs t (MRef 0).
Proof. intros Ht. eapply CT_ref; [reflexivity|]. destruct t; [congruence | apply CT_elem | apply CT_NA, CT_elem]. Qed.
Lemma src_card_restr : restr src_defs card.
Proof.
  cbn. repeat split; try discriminate; try apply src_single.
  - apply CT_NA, CT_text.
  - apply Sa_no. apply No_data.
  - apply CT_list, Lb_one, Lb_data.
  - apply CT_NA, CT_gr; [discriminate | | apply CT_gr; [discriminate | | apply CT_gr1]].
    + apply CT_EN, CT_opt, CT_attr, CT_data.
    + apply CT_in; [discriminate | apply CT_elem | apply CT_in1, CT_opt, CT_elem].
    + apply CT_zero; [discriminate | apply src_ct; discriminate].
Qed.
Lemma src_start_restr : restr src_defs ex_start.
Proof. cbn. repeat split; try discriminate; try apply src_single. apply CT_NA, CT_zero; [discriminate | apply src_ct; discriminate]. Qed.
Lemma src_rng : rng_schema src_defs ex_start.
Proof.
  constructor; [|exact src_start_restr | apply St_elem].
  intros [|[|[|r]]] X E; cbn in E; try discriminate; injection E as <-; [exact src_card_restr | exact src_start_restr].
Qed.
Lemma src_limits : in_limits src_defs ex_start.
Proof.
  constructor; [| |apply simple_alias, src_simple].
  - intros [|[|[|r]]] X E; cbn in E; try discriminate; injection E as <-; cbn; repeat split; try (left; apply simple_good, src_simple); apply simple_good, src_simple.
  - cbn. split; [exact I | left; apply simple_good, src_simple].
Qed.
Lemma src_accepts O : accepts O src_defs ex_start (doc_tokens ex_doc).
Proof. eexists. settle_with 40. Qed.
