(** * XmlExamples: schema documents in the XML syntax which meet the hypotheses of the theorems.

    main.rng
      <grammar xmlns="http://relaxng.org/ns/structure/1.0" xmlns:u="u" xmlns:a="ann"
               datatypeLibrary="http://www.w3.org/2001/XMLSchema-datatypes" a:by="me">
        <!-- cards --> <a:documentation>cards</a:documentation>
        <include href="lib.rng">
          <define name="name"><element name="name"><data type="NCName"><param name="maxLength">9</param>
            <except><value>x</value></except></data></element></define>
        </include>
        <start><ref name=" book "/></start>
        <define name="card" combine="choice">
          <element name="card"><optional><attribute name="id"><value type="token">k</value></attribute></optional><ref name="name"/></element>
        </define>
        <define name="book"><element name="u:book" ns="v"><zeroOrMore><ref name="card"/></zeroOrMore>
          <optional><element><choice><name>z</name><nsName ns="w"><except><name>y</name></except></nsName></choice><empty/></element></optional></element></define>
      </grammar>
    lib.rng
      <grammar xmlns="...">
        <define name="name"><element name="title"><text/></element></define>
        <define name="card" combine="choice"><element name="other"><ref name="name"/></element></define>
      </grammar>                                                                                        *)
From Coq Require Import String.
From Verif Require Import Base Datatype DatatypeSpec Facets Syntax Store Deriv Lang Compile SchemaCompile Spec SourceSpec SourceScope SchemaSpec SchemaExamples.
From Verif Require Import XmlSyntax RngXml XmlScope XmlBase XmlProof XmlCheck XmlAnnot XmlDoc XmlRefuse.
From Verif Require DatatypeProof.

Definition any_uri (s : str) : bool := true.
Definition A (n v : string) : xatt := XAtt None (lit n) (lit v).
Definition rn : str := rng_uri.
(** an element of RELAX NG, below declarations [sc] *)
Definition El (sc : list (option str * str)) (n : string) (atts : list xatt) (kids : list xnod) : xnod := XElt (Some rng_uri) (lit n) atts sc kids.
Definition T (s : string) : xnod := XTxt (lit s).
Definition s1 : list (option str * str) := [(None, rng_uri); (Some (lit "u"), lit "u"); (Some (lit "a"), lit "ann")].
Definition s0 : list (option str * str) := [(None, rng_uri)].
Definition xsd_uri : string := "http://www.w3.org/2001/XMLSchema-datatypes".
Definition ann_el : xnod := XElt (Some (lit "ann")) (lit "documentation") [] s1 [T "cards"].
Definition main_body : list xnod :=
  [El s1 "include" [A "href" "lib.rng"] [El s1 "define" [A "name" "name"] [El s1 "element" [A "name" "name"]
      [El s1 "data" [A "type" "NCName"] [El s1 "param" [A "name" "maxLength"] [T "9"]; El s1 "except" [] [El s1 "value" [] [T "x"]]]]]];
   T "  ";
   El s1 "start" [] [El s1 "ref" [A "name" " book "] []];
   El s1 "define" [A "name" "card"; A "combine" "choice"] [El s1 "element" [A "name" "card"]
      [El s1 "optional" [] [El s1 "attribute" [A "name" "id"] [El s1 "value" [A "type" "token"] [T "k"]]]; El s1 "ref" [A "name" "name"] []]];
   El s1 "define" [A "name" "book"] [El s1 "element" [A "name" "u:book"; A "ns" "v"]
      [El s1 "zeroOrMore" [] [El s1 "ref" [A "name" "card"] []];
       El s1 "optional" [] [El s1 "element" [] [El s1 "choice" [] [El s1 "name" [] [T "z"]; El s1 "nsName" [A "ns" "w"] [El s1 "except" [] [El s1 "name" [] [T "y"]]]]; El s1 "empty" [] []]]]]].
Definition main_rng : xnod := El s1 "grammar" [A "datatypeLibrary" xsd_uri; XAtt (Some (lit "ann")) (lit "by") (lit "me")] (XCom (lit " cards ") :: ann_el :: main_body).
Definition lib_rng : xnod := El s0 "grammar" []
  [El s0 "define" [A "name" "name"] [El s0 "element" [A "name" "title"] [El s0 "text" [] []]];
   El s0 "define" [A "name" "card"; A "combine" "choice"] [El s0 "element" [A "name" "other"] [El s0 "ref" [A "name" "name"] []]]].
Definition ex_xml (f : path) : option xnod := if path_eqb (P "main.rng") f then Some main_rng else if path_eqb (P "lib.rng") f then Some lib_rng else None.

Lemma main_scope : XScope any_uri main_rng. Proof. apply check_ok. vm_compute. reflexivity. Qed.
Lemma lib_scope : XScope any_uri lib_rng. Proof. apply check_ok. vm_compute. reflexivity. Qed.
Lemma no_external_near t f X : nodes_b (fun n => negb (named n "externalRef")) X = true -> near t f X.
Proof. intros H up a s k h r g Y HW. pose proof (Within_nodes _ _ _ _ _ HW H) as E. discriminate E. Qed.
Lemma ex_xml_ok : xml_ok any_uri ex_xml.
Proof.
  intros f X. unfold ex_xml. destruct (path_eqb (P "main.rng") f); [intros [= <-]; split; [exact main_scope | apply no_external_near; vm_compute; reflexivity]|].
  destruct (path_eqb (P "lib.rng") f); [|discriminate]. intros [= <-]. split; [exact lib_scope | apply no_external_near; vm_compute; reflexivity].
Qed.
(** with <externalRef>:
    ext.rng   <element name="doc" xmlns="..."><externalRef href="part.rng"/><externalRef href="lib2.rng"/></element>
    part.rng  <element name="p" xmlns="..."><text/></element>
    lib2.rng  <grammar xmlns="..."><start><element name="q"><empty/></element></start></grammar> *)
Definition ext_rng : xnod := El s0 "element" [A "name" "doc"] [El s0 "externalRef" [A "href" "part.rng"] []; El s0 "externalRef" [A "href" "lib2.rng"] []].
Definition part_rng : xnod := El s0 "element" [A "name" "p"] [El s0 "text" [] []].
Definition lib2_rng : xnod := El s0 "grammar" [] [El s0 "start" [] [El s0 "element" [A "name" "q"] [El s0 "empty" [] []]]].
Definition ext_xml (f : path) : option xnod :=
  if path_eqb (P "ext.rng") f then Some ext_rng else if path_eqb (P "part.rng") f then Some part_rng else if path_eqb (P "lib2.rng") f then Some lib2_rng else None.
Lemma ext_xml_names f Y : ext_xml f = Some Y -> f = P "ext.rng" \/ f = P "part.rng" \/ f = P "lib2.rng".
Proof. unfold ext_xml, path_eqb. repeat destruct path_eq_dec; subst; intros H; try discriminate; auto. Qed.
Lemma ext_xml_ok : xml_ok any_uri ext_xml.
Proof.
  intros f X HX. pose proof (ext_xml_names _ _ HX) as Hf. split.
  - assert (H : X = ext_rng \/ X = part_rng \/ X = lib2_rng) by (destruct Hf as [-> |[-> | -> ]]; vm_compute in HX; injection HX as <-; auto).
    destruct H as [-> |[-> | -> ]]; apply check_ok; vm_compute; reflexivity.
  - intros up a s k h r g Y _ _ _ _ HY _. apply ext_xml_names in HY. destruct Hf as [-> |[-> | -> ]], HY as [-> |[-> | -> ]]; apply same_dir_flat.
Qed.
Lemma ext_xml_compile O C : exists r st, compile_grammar O C (xml_files any_uri ext_xml) 5 (P "ext.rng") = fok (r, st).
Proof. eexists _, _. vm_compute. reflexivity. Qed.
Definition xid (ns s : string) : snc := CName (NmNs [lit ns] (lit s)).
Definition main_schema : schema := Schema [] (TGrammar
  [GInclude [lit "lib.rng"] None (Some [IDefine (lit "name") MAssign (SElement (xid "" "name")
      (SData (SdNs [lit xsd_uri] (lit "NCName")) (Some [(None, IKId (lit "maxLength"), [lit "9"])]) (Some (SValue None [lit "x"]))))]);
   GDefine (lit "start") MAssign (SIdent (lit "book"));
   GDefine (lit "card") MChoiceC (SElement (xid "" "card") (SListPair (SOptional (SAttribute (xid "" "id") (SValue (Some (SdNs [lit xsd_uri] (lit "token"))) [lit "k"]))) (SIdent (lit "name"))));
   GDefine (lit "book") MAssign (SElement (xid "u" "book") (SListPair (SZeroOrMore (SIdent (lit "card")))
      (SOptional (SElement (CAlt (xid "v" "z") (CNs (NsUri [lit "w"]) (Some (xid "w" "y")))) SEmpty))))]).
Lemma main_parsed : parse any_uri main_rng = Some main_schema. Proof. vm_compute. reflexivity. Qed.
Lemma main_stands : Stands any_uri main_rng main_schema. Proof. apply parse_ok; [exact main_scope | exact main_parsed]. Qed.
Lemma ex_xml_compile O C : exists r st, compile_grammar O C (xml_files any_uri ex_xml) 5 (P "main.rng") = fok (r, st).
Proof. eexists _, _. vm_compute. reflexivity. Qed.
Lemma ex_refused : XScope any_uri (El s0 "group" [] []) /\ parse any_uri (El s0 "group" [] []) = None /\ forall s, ~ Stands any_uri (El s0 "group" [] []) s.
Proof.
  assert (HS : XScope any_uri (El s0 "group" [] [])) by (apply check_ok; vm_compute; reflexivity). split; [exact HS|]. split; [reflexivity|]. intros s H. apply parse_ok in H; [discriminate H | exact HS].
Qed.

(** ** Annotations: the same document without them, attributes in another order *)
Definition plain_rng : xnod := El [(None, rng_uri); (Some (lit "u"), lit "u")] "grammar" [A "datatypeLibrary" xsd_uri] main_body.
Lemma alike_refl_atts a : NoDup (map (fun x => (xa_ns x, xa_name x)) a) -> AttsAlike a a.
Proof. intros H. split; [exact H | split; [exact H|]]. intros x _. reflexivity. Qed.
Lemma nodup_keys a : nodupb att_key_eqb (map (fun x => (xa_ns x, xa_name x)) a) = true -> NoDup (map (fun x => (xa_ns x, xa_name x)) a).
Proof. apply nodupb_ok, att_key_refl. Qed.
(** a document is like itself, when no name is repeated *)
Fixpoint self_b (n : xnod) : bool :=
  match n with
  | XElt ns nm a sc k => is_rng ns && nodupb att_key_eqb (map (fun x => (xa_ns x, xa_name x)) a) && nodupb opt_eqb (map fst sc) && (among_names nm string_names || forallb self_b k)
  | XTxt s => blankb s
  | _ => true
  end.
Lemma self_ok : forall N n, (xsize n < N)%nat -> self_b n = true -> match n with XElt _ _ _ _ _ => Alike SamePrefixes n n | _ => Extra n end.
Proof.
  induction N as [|N IH]; [lia|]. intros n HN H. destruct n as [ns nm a sc k|s|s|]; [|constructor; apply blankb_ok; exact H|constructor|constructor].
  cbn [self_b] in H. rewrite !andb_true_iff in H. destruct H as (((H1 & H2) & H3) & H4). apply is_rng_true in H1. subst ns. apply nodup_keys, alike_refl_atts in H2. apply (nodupb_ok _ opt_eqb_refl) in H3.
  assert (HP : SamePrefixes sc sc) by (repeat split; auto). destruct (among_names nm string_names) eqn:En.
  - apply Al_string; auto. unfold among_names in En. apply existsb_exists in En as (x & Hx & E). apply DatatypeProof.is_name_true in E. subst nm. apply in_map. exact Hx.
  - apply Al_element; auto.
    + intros Hi. apply in_map_iff in Hi as (x & <- & Hx). assert (among_names (lit x) string_names = true) by (apply among_lit; exact Hx). congruence.
    + cbn [orb] in H4. assert (HK : forall y, In y k -> (xsize y < N)%nat) by (intros y Hy; apply (kid_size (Some rng_uri) nm a sc) in Hy; lia). clear - IH H4 HK.
      induction k as [|y k IHk]; [constructor|]. cbn [forallb] in H4. apply andb_true_iff in H4 as [H5 H6]. specialize (IHk H6 (fun z Hz => HK z (or_intror Hz))). pose proof (IH y (HK y (or_introl eq_refl)) H5) as Hy.
      destruct y; [apply Aa_both; assumption | apply Aa_left; [exact Hy | apply Aa_right; [exact Hy | exact IHk]] ..].
Qed.
Lemma self_all : forall k, forallb self_b k = true -> AlikeAll SamePrefixes k k.
Proof.
  induction k as [|y k IH]; intros H; [constructor|]. cbn [forallb] in H. apply andb_true_iff in H as [H1 H2]. specialize (IH H2). pose proof (self_ok _ y (Nat.lt_succ_diag_r _) H1) as Hy.
  destruct y; [apply Aa_both; assumption | apply Aa_left; [exact Hy | apply Aa_right; [exact Hy | exact IH]] ..].
Qed.
Lemma ex_alike : Alike MorePrefixes plain_rng main_rng /\ parse any_uri plain_rng = Some main_schema.
Proof.
  split; [|vm_compute; reflexivity]. apply Al_element.
  - cbn. intuition discriminate.
  - split; [apply nodup_keys; reflexivity | split; [apply nodup_keys; reflexivity|]]. intros x Hx. split; [intros [<-|[]]; left; reflexivity|]. intros [<-|[<-|[]]]; [left; reflexivity|].
    exfalso. apply Hx. exists (lit "ann"). split; [reflexivity|]. split; [discriminate | intros [E _]; discriminate E].
  - split; [apply (nodupb_ok _ opt_eqb_refl); reflexivity | split; [apply (nodupb_ok _ opt_eqb_refl); reflexivity|]]. intros p u [E|[E|[]]]; [discriminate E|]. right; left; exact E.
  - apply Aa_right; [constructor|]. apply Aa_right; [constructor; discriminate|]. assert (X : AlikeAll SamePrefixes main_body main_body) by (apply self_all; vm_compute; reflexivity).
    revert X. generalize main_body at 1 3. generalize main_body. intros l l' X.
    induction X as [|k m m' H _ IH|k m m' H _ IH|k k' m m' H _ IH]; [constructor | apply Aa_left; assumption | apply Aa_right; assumption|].
    apply Aa_both; [|exact IH]. apply (Alike_map SamePrefixes); [intros a b [? ?]; assumption | exact H].
Qed.

(** ** Bases: <grammar xml:base="dir/main.rng"> <div xml:base="sub/"> <include href="a.rng"/> *)
Definition ex_bases : ups := [[A "href" "a.rng"]; [XAtt (Some xml_ns) (lit "base") (lit "sub/")]; [A "ns" "u"; XAtt (Some xml_ns) (lit "base") (lit "dir/main.rng")]].
Lemma ex_base : Forall distinct ex_bases /\ bases_clean ex_bases /\ rebase_path ex_bases (lit "a.rng") = lit "dir/sub/a.rng" /\ Resolved ex_bases (lit "a.rng") (lit "dir/sub/a.rng").
Proof.
  assert (H1 : Forall distinct ex_bases) by (constructor; [|constructor; [|constructor; [|constructor]]]; apply nodup_keys; reflexivity).
  assert (H2 : bases_clean ex_bases).
  { constructor; [|constructor; [|constructor; [|constructor]]].
    - intros v [E|[]]. discriminate E.
    - intros v [E|[]]. injection E as <-. apply clean_pathb_ok. reflexivity.
    - intros v [E|[E|[]]]; [discriminate E|]. injection E as <-. apply clean_pathb_ok. reflexivity. }
  assert (H3 : rebase_path ex_bases (lit "a.rng") = lit "dir/sub/a.rng") by reflexivity.
  split; [exact H1 | split; [exact H2 | split; [exact H3|]]]. apply rebase_ok; [exact H1 | exact H2 | discriminate | exact H3].
Qed.
Lemma ex_seen : parse any_uri main_rng = Some main_schema /\ Seen main_rng (El s1 "param" [A "name" "maxLength"] [T "9"]).
Proof.
  split; [exact main_parsed|]. unfold main_rng, main_body, El.
  eapply Se_kid; [right; right; left; reflexivity | discriminate | discriminate|]. do 4 (eapply Se_kid; [left; reflexivity | discriminate | discriminate|]). apply Se_here.
Qed.
