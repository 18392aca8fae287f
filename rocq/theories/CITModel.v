(** Model of causallearn/utils/cit.py 12-84 (names, registry, CIT) and of the constructors of its classes: which class is built, with which settings, and which
    exceptions are raised.  Strings are Coq strings; an option value is any value.  Not modelled: cache_path and the cache (see CacheModel), the values checked by
    the tests when they are called. *)
From Verif Require Import Base.
From Coq Require Import String.
Local Open Scope string_scope.

(** A cell of the data: a number (a rank would do), plus or minus infinity, or NaN. *)
Inductive cell := Finite (z : Z) | PosInf | NegInf | NaN.
Definition cell_dec (a b : cell) : {a = b} + {a <> b}.
Proof. decide equality. apply Z.eq_dec. Defined.
(** The data, column by column. *)
Definition table := list (list cell).
Definition is_nan (c : cell) : bool := match c with NaN => true | _ => false end.
Definition is_inf (c : cell) : bool := match c with PosInf | NegInf => true | _ => false end.
(** cit.py:123-125: np.isnan(data).any(), np.isinf(data).any() *)
Definition valid (allow_nan allow_inf : bool) (D : table) : bool := (allow_nan || negb (existsb (existsb is_nan) D)) && (allow_inf || negb (existsb (existsb is_inf) D)).
(** cit.py:295-296 _unique: np.unique(column, return_inverse=True)[1], the rank of each cell among the distinct cells; numpy sorts NaN after all numbers and
    (from 1.21 on, equal_nan=True) counts all NaN as one value. *)
Definition below (b a : cell) : bool :=
  match a, b with
  | NaN, _ => false | _, NaN => true
  | PosInf, _ => false | _, PosInf => true
  | Finite x, Finite y => (x <? y)%Z | Finite _, NegInf => false
  | NegInf, NegInf => false | NegInf, Finite _ => true
  end.
Definition code (col : list cell) (x : cell) : nat := List.length (nodup cell_dec (filter (below x) col)).
Definition codes (col : list cell) : list nat := map (code col) col.

Section V.
Context {V : Type}.
Definition kwargs := list (string * V).
Definition lookup {A} (k : string) (l : list (string * A)) : option A := match find (fun p => String.eqb (fst p) k) l with Some p => Some (snd p) | None => None end.
Definition memstr (k : string) (l : list string) : bool := existsb (String.eqb k) l.
(** {k: v for k, v in kwargs.items() if k in names} *)
Definition restrict (names : list string) (kw : kwargs) : kwargs := filter (fun p => memstr (fst p) names) kw.
(** Calling a constructor with keyword parameters [sig] (all with defaults): a TypeError for any other keyword; otherwise what was given (None: the default). *)
Definition construct (sig : list string) (kw : kwargs) : option (string -> option V) :=
  if forallb (fun p => memstr (fst p) sig) kw then Some (fun k => lookup k kw) else None.
(** What CIT returns or raises. *)
Inductive built :=
| Simple (name : string)                              (* FisherZ, MV_FisherZ, MC_FisherZ *)
| Discrete (name : string) (data : list (list nat))     (* Chisq_or_Gsq: the codes of the columns *)
| DSep (true_dag : option V)
| Kernel (name : string) (unconditional conditional : string -> option V)
| CustomTest (c : nat)
| TypeError | ValueError | AssertionError.
(** cit.py:227-239; the parameters of KCI.py:29, 249. *)
Definition kci_ui_names := ["kernelX"; "kernelY"; "null_ss"; "approx"; "est_width"; "polyd"; "kwidthx"; "kwidthy"].
Definition kci_ci_names := ["kernelX"; "kernelY"; "kernelZ"; "null_ss"; "approx"; "use_gp"; "est_width"; "polyd"; "kwidthx"; "kwidthy"; "kwidthz"].
Definition kci_u_sig := ["kernelX"; "kernelY"; "null_ss"; "approx"; "est_width"; "polyd"; "kwidthx"; "kwidthy"].
Definition kci_c_sig := ["kernelX"; "kernelY"; "kernelZ"; "nullss"; "est_width"; "use_gp"; "approx"; "polyd"; "kwidthx"; "kwidthy"; "kwidthz"].
(** cit.py:250-261; FastKCI.py:29, 359 *)
Definition fast_ui_names := ["K"; "J"; "alpha"].
Definition fast_ci_names := ["K"; "J"; "alpha"; "use_gp"].
Definition fast_u_sig := ["K"; "J"; "alpha"].
Definition fast_c_sig := ["K"; "J"; "alpha"; "epsilon"; "eig_thresh"; "use_gp"].
(** cit.py:272-283; RCIT.py:19, 236 *)
Definition rit_names := ["approx"].
Definition rcit_names := ["approx"; "num_f"; "num_f2"; "rcit"].
Definition rit_sig := ["approx"].
Definition rcit_sig := ["approx"; "num_f"; "num_f2"; "rcit"].
Definition kernel_init (name : string) (un cn us cs : list string) (D : table) (kw : kwargs) : built :=
  if valid false false D then
    match construct us (restrict un kw), construct cs (restrict cn kw) with Some u, Some c => Kernel name u c | _, _ => TypeError end
  else AssertionError.
(** The built-in branches of CIT, 68-84.  A chisq or gsq test works on the codes of np.unique (299), which are integers: the check of 301 never fails. *)
Definition built_in (name : string) (D : table) (kw : kwargs) : option built :=
  if String.eqb name "fisherz" then Some (if valid false false D then Simple name else AssertionError)
  else if String.eqb name "kci" then Some (kernel_init name kci_ui_names kci_ci_names kci_u_sig kci_c_sig D kw)
  else if String.eqb name "fastkci" then Some (kernel_init name fast_ui_names fast_ci_names fast_u_sig fast_c_sig D kw)
  else if String.eqb name "rcit" then Some (kernel_init name rit_names rcit_names rit_sig rcit_sig D kw)
  else if memstr name ["chisq"; "gsq"] then Some (Discrete name (map codes D))
  else if String.eqb name "mv_fisherz" then Some (if valid true false D then Simple name else AssertionError)
  else if String.eqb name "mc_fisherz" then Some (if valid true false D then Simple name else AssertionError)
  else if String.eqb name "d_separation" then Some (DSep (lookup "true_dag" kw))
  else None.
(** 28-48 register_ci_test; a class is a number and whether it inherits from CIT_Base.  dict assignment: the last one counts. *)
Definition registry := list (string * nat).
Definition register (reg : registry) (name : string) (cls : nat * bool) : registry * option nat :=
  if snd cls then ((name, fst cls) :: reg, Some (fst cls)) else (reg, None).
(** 51-84 *)
Definition cit (reg : registry) (D : table) (method : string) (kw : kwargs) : built :=
  match lookup method reg with
  | Some c => CustomTest c
  | None => match built_in method D kw with Some b => b | None => ValueError end
  end.
End V.
Arguments built : clear implicits.
Arguments kwargs : clear implicits.
