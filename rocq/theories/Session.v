(** * Session: one [Compiler] used for several calls of [compile], while the files may change (lib.rs:663-719, 1180-1193).
    SchemaCompile.v models one call on a fresh compiler, with files that do not change.  Here the compiler keeps its [loaded] cache from
    call to call, whatever the call answers, and a file not in it is read at the moment it is needed. *)
From Coq Require Import String.
From Verif Require Import Base Datatype Facets Store Compile Syntax SchemaCompile.

(** lib.rs:663-669: the field [loaded] (the [codemap] only grows, see Located.v; [datatype_compiler] has no state,
    datatype/mod.rs:75-78).  [clock]: how many times a file has been read; time may also pass otherwise ([wait]). *)
Record world := World { cache : list (path * schema); clock : nat }.
Definition new_compiler (t : nat) : world := World [] t.
Definition wait (k : nat) (w : world) : world := World (cache w) (k + clock w).
Fixpoint cached (f : path) (l : list (path * schema)) : option schema :=
  match l with [] => None | (g, s) :: l' => if path_eqb g f then Some s else cached f l' end.

(** the monad of the compiler: an error leaves the cache as it is *)
Definition DM (A : Type) := world -> cst -> fres rerror (A * cst) * world.
Definition once {A} (m : CM A) : DM A := fun w st => (m st, w).
Definition dbind {A B} (m : DM A) (f : A -> DM B) : DM B := fun w st =>
  match m w st with
  | (Ok (inl (a, st')), w') => f a w' st'
  | (Ok (inr e), w') => (Ok (inr e), w')
  | (Panic p, w') => (Panic p, w')
  | (OutOfFuel, w') => (OutOfFuel, w')
  end.
Definition dmap_err {A} (g : rerror -> rerror) (m : DM A) : DM A := fun w st => let '(r, w') := m w st in (fmap_err g r, w').
Definition diter {A} (f : A -> DM unit) : list A -> DM unit :=
  fix go l := match l with [] => once (cret tt) | x :: l' => dbind (f x) (fun _ => go l') end.
Declare Scope dm_scope.
Delimit Scope dm_scope with dm.
Notation "'do' x <- m ; f" := (dbind m (fun x => f)) (at level 200, x pattern, m at level 100, f at level 200) : dm_scope.
Notation "'run' m ; f" := (dbind m (fun _ => f)) (at level 200, m at level 100, f at level 200) : dm_scope.
Open Scope dm_scope.

Section Session.
Variable O : oracles.
Variable C : coracles.
(** [disk t f]: what reading and parsing file [f] gives at moment [t] *)
Variable disk : nat -> filesys.

(** lib.rs:1180-1193 [get_schema]: a file in the cache is not read again; one that cannot be read or parsed is not put in the cache *)
Definition dget (name : path) : DM schema := fun w st =>
  let st' := Cst (cells st) (tables st) (ovrs st) (if in_dec path_eq_dec name (loaded st) then loaded st else loaded st ++ [name]) in
  match cached name (cache w) with
  | Some s => (fok (s, st'), w)
  | None =>
      match disk (clock w) name with
      | inl s => (fok (s, st'), World ((name, s) :: cache w) (S (clock w)))
      | inr e => (ferr (EFile e), World (cache w) (S (clock w)))
      end
  end.

Section File.
Variable rp : ctx -> spat -> DM mpat.
Variable ri : ctx -> list gcontent -> DM unit.
(** lib.rs:1195-1231 [compile_schema] *)
Definition dschema_with (cp : ctx -> spat -> DM mpat) (ci : ctx -> list gcontent -> DM unit) (c : ctx) (s : schema) : DM ctx :=
  do c' <- once (compile_declarations c (s_decls s));
  match s_top s with
  | TPattern p =>
      if is_include c' then
        match p with
        | SGrammar l => run ci c' l; once (cret c')
        | _ => once (cerr EIncludedFileMustBeGrammar)
        end
      else
        do r <- cp c' p;
        run once (define c' (lit "start") (AssignCombine None r));
        once (cret c')
  | TGrammar l => run ci c' l; once (cret c')
  end.
(** lib.rs:1503-1538 [compile_pattern] and the functions it calls (1539-1836), as in SchemaCompile.v *)
Fixpoint dpattern (c : ctx) (p : spat) {struct p} : DM mpat :=
  match p with
  | SElement nc q =>
      do n <- once (compile_nameclass c true nc);
      do c' <- once (new_element c);
      do x <- dpattern c' q;
      once (cret (MElement n x))
  | SAttribute nc q =>
      do n <- once (compile_nameclass c false nc);
      do x <- dpattern (XAttribute c) q;
      once (cret (MAttribute n x))
  | SList q => do x <- dpattern c q; once (cret (MList x))
  | SMixed q => do x <- dpattern c q; once (cret (MMixed x))
  | SIdent i => do r <- once (acquire_ref c i); once (cret (MRef r))
  | SParent i => do r <- once (acquire_parent_ref c i); once (cret (MRef r))
  | SEmpty => once (cret MEmpty)
  | SText => once (cret MText)
  | SNotAllowed => once (cret MNotAllowed)
  | SExternal href inh =>
      match inh with
      | Some _ => once (cpanic PUnimplemented)
      | None =>
          do f <- once (path_from c href);
          do s <- dmap_err EInclude (dget f);
          do inc <- once (new_include c f);
          match s_top s with
          | TPattern q => dmap_err EInclude (rp inc q)
          | TGrammar l =>
              do g <- once (new_grammar c);
              run ri g l;
              do u <- once (undefined_in (table_of g));
              match u with
              | Some n => once (cerr (EUndefinedReference n))
              | None => once (take_start (table_of g))
              end
          end
      end
  | SGrammar l =>
      do g <- once (new_grammar c);
      run diter (dcontent g) l;
      once (take_start (table_of g))
  | SGroup q => dpattern c q
  | SListPair a b =>
      do x <- dpattern c a;
      do y <- dpattern c b;
      once (cret (MGroup (seq_members x ++ seq_members y)))
  | SInterleavePair a b =>
      do x <- dpattern c a;
      do y <- dpattern c b;
      once (cret (MInterleave (inter_members x ++ inter_members y)))
  | SChoicePair a b =>
      do x <- dpattern c a;
      do y <- dpattern c b;
      once (cret (MChoice (choice_members x ++ choice_members y)))
  | SOptional q => do x <- dpattern c q; once (cret (MOptional x))
  | SZeroOrMore q => do x <- dpattern c q; once (cret (MZeroOrMore x))
  | SOneOrMore q => do x <- dpattern c q; once (cret (MOneOrMore x))
  | SValue n v =>
      do d <- once (compile_dtname c (match n with Some n => n | None => SdToken end));
      do x <- once (lift_dt (Facets.datatype_value d (lit_value v)));
      once (cret (MValue x))
  | SData n ps ex =>
      do d <- once (compile_dtname c n);
      do x <- once (lift_dt (Facets.datatype_name O C d (param_values ps)));
      do e <- match ex with Some e => do e' <- dpattern c e; once (cret (Some e')) | None => once (cret None) end;
      once (cret (MData x e))
  end
(** lib.rs:1680-1702 [compile_grammar_content_item] with 1254-1278, 1279-1288, 1296-1364 [compile_include] *)
with dcontent (c : ctx) (g : gcontent) {struct g} : DM unit :=
  match g with
  | GDefine n how p =>
      do x <- dpattern (XDefine c n) p;
      once (define c n (rule_of how x))
  | GDiv l => diter (dcontent c) l
  | GInclude href inh ov =>
      do f <- once (path_from c href);
      do s <- dmap_err EInclude (dget f);
      do inc <- once (new_include c f);
      do inc <- once (inherit_prefix c inc inh);
      run match ov with
          | Some l => diter (fun i => dmap_err EInclude (doverride (XOverrides inc) i)) l
          | None => once (cret tt)
          end;
      do inc <- dmap_err EInclude (dschema_with rp ri inc s);
      once (check_overrides inc)
  | GAnnotation _ => once (cret tt)
  end
(** lib.rs:1329-1344: one item of an override block *)
with doverride (c : ctx) (i : icontent) {struct i} : DM unit :=
  match i with
  | IDefine n how p =>
      do x <- dpattern (XDefine c n) p;
      once (define c n (rule_of how x))
  | IDiv _ => once (cpanic PUnimplemented)
  | IAnnotation _ => once (cret tt)
  end.
Definition dcontents (c : ctx) : list gcontent -> DM unit := diter (dcontent c).
End File.

(** files nested at most [d] deep *)
Fixpoint dnested (d : nat) : (ctx -> spat -> DM mpat) * (ctx -> list gcontent -> DM unit) :=
  match d with
  | 0 => (fun _ _ => once cfuel, fun _ _ => once cfuel)
  | S d => let (rp, ri) := dnested d in (dpattern rp ri, dcontents rp ri)
  end.
(** lib.rs:693-719 after [compile_schema]: the undefined names, the start and [check] *)
Definition finish (c : ctx) : CM nat :=
  (do u <- undefined_in (table_of c);
   match u with
   | Some n => cerr (EUndefinedReference n)
   | None =>
       do r <- get_ref_in (table_of c) (lit "start");
       match r with
       | None => cerr EStartRuleNotDefined
       | Some r => fun st =>
           match nth r (cells st) ([], None) with
           | (_, Some rule) => fbind (check_refs (cells st) (S (List.length (cells st))) [] (rule_pattern rule)) (fun _ => fok (r, st))
           | (_, None) => Panic PUnwrapNone
           end
       end
   end)%cm.
(** lib.rs:693-719 [Compiler::compile] *)
Definition dcompile (d : nat) (name : path) (w : world) : fres rerror (nat * cst) * world :=
  (do s <- dget name;
   do c <- once (new_root name);
   let (rp, ri) := dnested d in
   do c <- dschema_with (dpattern rp ri) (dcontents rp ri) c s;
   once (finish c)) w empty_cst.
(** lib.rs:687-689 [Compiler::loaded] *)
Definition files_loaded (w : world) : list path := map fst (cache w).
End Session.
