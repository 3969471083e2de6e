(** Dictionaries with attribute access, named tuples, dispatch tables and the remaining small helpers (helper.py, grid2.py, integrate.py). *)
From Coq Require Import ZArith Reals List Arith Bool String Ascii.
From Coquelicot Require Import Coquelicot.
From Verif Require Import Model.Num Model.Np Model.Common.
Import ListNotations.
Local Open Scope string_scope.
Local Open Scope list_scope.

(** d[k] = v on a Python dictionary: the value is replaced in place, or the key is appended *)
Fixpoint dset {K V} (eqb : K -> K -> bool) (d : dict K V) (k : K) (v : V) : dict K V :=
  match d with
  | [] => [(k, v)]
  | (k', w) :: d' => if eqb k k' then (k', v) :: d' else (k', w) :: dset eqb d' k v
  end.

(** ** helper.py:96-98 [bunch] *)
(** the names python finds on the class before it calls __getattr__: dir(dict), and those a class statement adds *)
Definition class_attrs : list string :=
  ["clear"; "copy"; "fromkeys"; "get"; "items"; "keys"; "pop"; "popitem"; "setdefault"; "update"; "values";
   "__class__"; "__class_getitem__"; "__contains__"; "__delattr__"; "__delitem__"; "__dict__"; "__dir__"; "__doc__"; "__eq__"; "__format__"; "__ge__"; "__getattr__"; "__getattribute__"; "__getitem__";
   "__gt__"; "__hash__"; "__init__"; "__init_subclass__"; "__ior__"; "__iter__"; "__le__"; "__len__"; "__lt__"; "__module__"; "__ne__"; "__new__"; "__or__"; "__reduce__"; "__reduce_ex__"; "__repr__";
   "__reversed__"; "__ror__"; "__setattr__"; "__setitem__"; "__sizeof__"; "__str__"; "__subclasshook__"; "__weakref__"].
Definition mem (s : string) (l : list string) : bool := existsb (String.eqb s) l.
Inductive attr (V : Type) : Type := ClassAttr (name : string) | Item (v : V).
Arguments ClassAttr {V}. Arguments Item {V}.
(** helper.py:96-98 [bunch]: b.k *)
Definition bunch_getattr {V} (b : dict string V) (k : string) : res (attr V) :=
  if mem k class_attrs then Ok (ClassAttr k) else bind (dget String.eqb b k) (fun v => Ok (Item v)).
(** helper.py:96-98 [bunch]: b.k = v *)
Definition bunch_setattr {V} (b : dict string V) (k : string) (v : V) : dict string V := dset String.eqb b k v.
(** helper.py:96-98 [bunch]: bunch(k1=v1, ...) *)
Definition bunch_of {V} (kw : list (string * V)) : dict string V := fold_left (fun b p => dset String.eqb b (fst p) (snd p)) kw [].

(** ** named tuples *)
(** str.split(c) *)
Fixpoint split_on (c : ascii) (s : string) : list string :=
  match s with
  | EmptyString => [EmptyString]
  | String a s' => if Ascii.eqb a c then EmptyString :: split_on c s'
                   else match split_on c s' with [] => [String a EmptyString] | w :: ws => String a w :: ws end
  end.
(** ASCII white space, as str.split() *)
Definition is_space (a : ascii) : bool := existsb (Ascii.eqb a) [" "; "009"; "010"; "011"; "012"; "013"; "028"; "029"; "030"; "031"]%char.
(** str.split(): the words between white space *)
Fixpoint words_from (acc : string) (s : string) : list string :=
  match s with
  | EmptyString => match acc with EmptyString => [] | _ => [acc] end
  | String a s' => if is_space a then match acc with EmptyString => words_from EmptyString s' | _ => acc :: words_from EmptyString s' end
                   else words_from (acc ++ String a EmptyString)%string s'
  end.
Definition words (s : string) : list string := words_from EmptyString s.
(** str.replace(',', ' ') *)
Fixpoint commas_to_spaces (s : string) : string :=
  match s with EmptyString => EmptyString | String a s' => String (if Ascii.eqb a ","%char then " "%char else a) (commas_to_spaces s') end.
(** str.isidentifier() on ASCII strings and keyword.iskeyword *)
Definition letter (a : ascii) : bool := let n := nat_of_ascii a in ((65 <=? n) && (n <=? 90) || (97 <=? n) && (n <=? 122) || (n =? 95))%nat%bool.
Definition digit (a : ascii) : bool := let n := nat_of_ascii a in ((48 <=? n) && (n <=? 57))%nat%bool.
Fixpoint all_chars (p : ascii -> bool) (s : string) : bool := match s with EmptyString => true | String a s' => (p a && all_chars p s')%bool end.
Definition identifier (s : string) : bool := match s with EmptyString => false | String a s' => (letter a && all_chars (fun c => letter c || digit c) s')%bool end.
Definition keywords : list string :=
  ["False"; "None"; "True"; "and"; "as"; "assert"; "async"; "await"; "break"; "class"; "continue"; "def"; "del"; "elif"; "else"; "except"; "finally"; "for"; "from"; "global"; "if"; "import"; "in"; "is";
   "lambda"; "nonlocal"; "not"; "or"; "pass"; "raise"; "return"; "try"; "while"; "with"; "yield"].
Definition underscored (s : string) : bool := match s with String a _ => Ascii.eqb a "_"%char | EmptyString => false end.
Definition valid_name (s : string) : bool := (identifier s && negb (mem s keywords))%bool.
Fixpoint distinct (l : list string) : bool := match l with [] => true | s :: l' => (negb (mem s l') && distinct l')%bool end.
(** collections.namedtuple(typename, fields): the field names; ValueError for names that are not identifiers, keywords, duplicates, leading underscores *)
Definition namedtuple (typename fields : string) : res (list string) :=
  let names := words (commas_to_spaces fields) in
  if (forallb valid_name (typename :: names) && forallb (fun s => negb (underscored s)) names && distinct names)%bool then Ok names else Err ValueError.
(** the call of a named tuple class with keyword arguments kw: the keywords have to be the fields *)
Definition tuple_call {V} (names : list string) (kw : dict string V) : res (list (string * V)) :=
  if forallb (fun p => mem (fst p) names) kw
  then fold_right (fun n r => match dget String.eqb kw n with Ok v => bind r (fun l => Ok ((n, v) :: l)) | Err _ => Err TypeError end) (Ok []) names
  else Err TypeError.
(** helper.py:100-106 [nametuple]; the dictionary comprehension runs first *)
Definition nametuple {V} (name fields : string) (d : dict string V) : res (list (string * V)) :=
  bind (fold_left (fun r x => bind r (fun kw => bind (dget String.eqb d x) (fun v => Ok (dset String.eqb kw x v)))) (split_on ","%char fields) (Ok []))
    (fun kw => bind (namedtuple name fields) (fun names => tuple_call names kw)).
(** helper.py:153-161 [make_namedtuple]; metaclass._fields = fields *)
Fixpoint make_namedtuple {V} (fields : list string) (d : dict string V) : res (list (string * V)) :=
  match fields with
  | [] => Ok []
  | f :: fs => bind (dget String.eqb d f) (fun v => bind (make_namedtuple fs d) (fun l => Ok ((f, v) :: l)))
  end.
(** helper.py:108-128 [NamedTuple]: what This() returns in a frame with the local variables local; None for a field that is not a local variable *)
Definition this_tuple {V} (fields : list string) (local : dict string V) : list (string * option V) :=
  map (fun f => (f, match dget String.eqb local f with Ok v => Some v | Err _ => None end)) fields.
(** helper.py:130-132 [set_attributes] on an object with plain attributes and helper.py:134-136 [set_dictionary]: obj.f = nt.f, obj[f] = nt.f *)
Definition set_fields {V} (obj : dict string V) (nt : list (string * V)) : dict string V := fold_left (fun o p => dset String.eqb o (fst p) (snd p)) nt obj.

(** ** helper.py:242-254 [multipledispatch], [register]: a dispatched function with its table *)
Record multi (X : Type) := MkMulti { m_table : dict (list Z) (list X -> res X); m_default : option (list X -> res X) }.
Arguments MkMulti {X}. Arguments m_table {X}. Arguments m_default {X}.
Fixpoint keyz_eqb (a b : list Z) : bool := match a, b with [], [] => true | x :: a', y :: b' => (Z.eqb x y && keyz_eqb a' b')%bool | _, _ => false end.
(** helper.py:242-254: the new function, without entries *)
Definition multi_new {X} : multi X := MkMulti [] None.
(** helper.py:256-262 [register](f, *key)(fn) *)
Definition register {X} (m : multi X) (key : list Z) (fn : list X -> res X) : multi X :=
  match key with [] => MkMulti (m_table m) (Some fn) | _ => MkMulti (dset keyz_eqb (m_table m) key fn) (m_default m) end.
(** helper.py:245-250 [_inner]: the arguments are pairs of a degree and components, T makes a form; the degree of the result is computed before the table is read *)
Definition multi_call {X F} (T : Z -> X -> res F) (dispatch_fn : list Z -> res Z) (m : multi X) (args : list (Z * X)) : res F :=
  let d := map fst args in
  bind (dispatch_fn d) (fun d_ => bind (dget keyz_eqb (m_table m) d) (fun fn => bind (fn (map snd args)) (fun c_ => T d_ c_))).
(** grid2.py:446-453 [assignfunctionto]: assign(k)(f) *)
Definition assign {K V} (eqb : K -> K -> bool) (d : dict K V) (k : K) (f : V) : dict K V := dset eqb d k f.

(** integrate.py:199-217 [n_integration_1d]: P0(f, x0); P1 vectorised over x0 and x1, quad being the exact integral *)
Definition n_P0 (f : R -> R) (x0 : list R) : list R := map f x0.
Definition n_P1 (f : R -> R) (x0 x1 : list R) : res (list R) := np_bin (fun a b => RInt f a b) x0 x1.
(** periodic.py:141-150 [differentiation_toeplitz]: raise NotImplemented is a TypeError *)
Definition differentiation_toeplitz (n : nat) : res (list (list R)) := Err TypeError.
