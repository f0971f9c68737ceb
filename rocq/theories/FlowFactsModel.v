(** Model of the library summaries:
    /repo/include/phasar/PhasarLLVM/DataFlow/IfdsIde/FunctionDataFlowFacts.h ("FF.h"),
    LLVMFunctionDataFlowFacts.h ("LF.h") there, and
    /repo/lib/PhasarLLVM/DataFlow/IfdsIde/LLVMFunctionDataFlowFacts.cpp ("LF.cpp") and
    LibCSummary.cpp.

    Maps are association lists: unordered_map and StringMap have no order, and no theorem
    depends on the one here.  [None] of a lookup: the end iterator is dereferenced.
    Simplification: parameter indices are natural numbers (16 and 32 bits there). *)
From Coq Require Import String List Bool Arith.
From Verif Require Import Assoc.
Import ListNotations.

(** DataFlowFact, FF.h:13-24 *)
Inductive fact := Param (i : nat) | Ret.

Section Tables.
  Context {K : Type} {EK : EqDec K}.
  Local Notation mapping := (list (nat * list fact)).
  Definition table := list (K * mapping).

  (** insertSet, FF.h:34-37 and LF.h:22-32 *)
  Definition insertSet (k : K) (i : nat) (out : list fact) (T : table) : table :=
    let m := afindd [] k T in
    aset k (match afind i m with Some _ => m | None => aset i out m end) T.
  (** addElement, FF.h:40-42 and LF.h:34-40 *)
  Definition addElement (k : K) (i : nat) (f : fact) (T : table) : table :=
    let m := afindd [] k T in
    aset k (aset i (afindd [] i m ++ [f]) m) T.
  (** getDataFlowFacts, FF.h:45-54 *)
  Definition getDataFlowFacts (k : K) (i : nat) (T : table) : option (list fact) :=
    match afind k T with
    | Some m => afind i m
    | None => Some []
    end.

  (** contains, LF.h:42-44 *)
  Definition contains (k : K) (T : table) : bool := match afind k T with Some _ => true | None => false end.
  (** getFacts, LF.h:46-57, with the table afterwards: operator[] adds a missing entry *)
  Definition getFacts (k : K) (i : nat) (T : table) : list fact * table :=
    match afind k T with
    | Some m => (afindd [] i m, aset k (aset i (afindd [] i m) m) T)
    | None => ([], T)
    end.
  (** getFactsForFunction, LF.h:59-66 *)
  Definition getFactsForFunction (k : K) (T : table) : mapping := afindd [] k T.
End Tables.
Arguments table : clear implicits.

(** readFromFDFF, LF.cpp:6-18; [getFunction]: LLVMProjectIRDB::getFunction *)
Definition readFromFDFF {K F} {EF : EqDec F} (getFunction : K -> option F) (T : table K) : table F :=
  fold_left (fun R x => match getFunction (fst x) with
                        | Some f => if contains f R then R else aset f (snd x) R
                        | None => R
                        end) T [].

#[global] Instance EqDec_funcKey : EqDec string := string_dec.
Local Open Scope string_scope.
(** the calls of addElement in createLibCSummary, LibCSummary.cpp:8-1990 *)
Definition libcCalls : list (string * nat * fact) := [
    ("abs", 0, Ret); ("acos", 0, Ret); ("acosf", 0, Ret); ("acosh", 0, Ret); ("acoshf", 0, Ret); ("acoshl", 0, Ret); ("acosl", 0, Ret);
    ("argz_add", 2, Param 0); ("argz_add_sep", 2, Param 0); ("argz_append", 2, Param 0); ("argz_append", 3, Param 1);
    ("argz_create", 0, Param 1); ("argz_create_sep", 0, Param 2); ("argz_extract", 0, Param 2); ("argz_insert", 3, Param 0);
    ("argz_next", 0, Ret); ("argz_replace", 0, Param 0); ("argz_stringify", 2, Param 0); ("asin", 0, Ret); ("asinf", 0, Ret);
    ("asinh", 0, Ret); ("asinhf", 0, Ret); ("asinhl", 0, Ret); ("asinl", 0, Ret); ("asprintf", 1, Param 0); ("asprintf", 2, Param 0);
    ("asprintf", 3, Param 0); ("asprintf", 4, Param 0); ("asprintf", 5, Param 0); ("atan", 0, Ret); ("atan2", 0, Ret); ("atan2", 1, Ret);
    ("atan2f", 0, Ret); ("atan2f", 1, Ret); ("atan2l", 0, Ret); ("atan2l", 1, Ret); ("atanf", 0, Ret); ("atanh", 0, Ret);
    ("atanhf", 0, Ret); ("atanhl", 0, Ret); ("atanl", 0, Ret); ("basename", 0, Ret); ("bcopy", 0, Param 1); ("bindtextdomain", 1, Ret);
    ("bind_textdomain_codeset", 1, Ret); ("bsearch", 1, Ret); ("btowc", 0, Ret); ("cabs", 0, Ret); ("cabsf", 0, Ret); ("cabsl", 0, Ret);
    ("cacos", 0, Ret); ("cacosf", 0, Ret); ("cacosl", 0, Ret); ("cacosh", 0, Ret); ("cacoshf", 0, Ret); ("cacoshl", 0, Ret);
    ("carg", 0, Ret); ("cargf", 0, Ret); ("cargl", 0, Ret); ("casin", 0, Ret); ("casinf", 0, Ret); ("casinh", 0, Ret); ("casinhf", 0, Ret);
    ("casinhl", 0, Ret); ("casinl", 0, Ret); ("catan", 0, Ret); ("catanf", 0, Ret); ("catanh", 0, Ret); ("catanhf", 0, Ret);
    ("catanhl", 0, Ret); ("catanl", 0, Ret); ("catgets", 3, Ret); ("cbrt", 0, Ret); ("cbrtf", 0, Ret); ("cbrtl", 0, Ret); ("ccos", 0, Ret);
    ("ccosf", 0, Ret); ("ccosh", 0, Ret); ("ccoshf", 0, Ret); ("ccoshl", 0, Ret); ("ccosl", 0, Ret); ("ceil", 0, Ret); ("ceilf", 0, Ret);
    ("ceill", 0, Ret); ("cexp", 0, Ret); ("cexpf", 0, Ret); ("cexpl", 0, Ret); ("cfgetispeed", 0, Ret); ("cfgetospeed", 0, Ret);
    ("cimag", 0, Ret); ("cimagf", 0, Ret); ("cimagl", 0, Ret); ("clog", 0, Ret); ("clog10", 0, Ret); ("clog10f", 0, Ret);
    ("clog10l", 0, Ret); ("clogf", 0, Ret); ("clogl", 0, Ret); ("conj", 0, Ret); ("conjf", 0, Ret); ("conjl", 0, Ret); ("copysign", 0, Ret);
    ("copysign", 1, Ret); ("copysignf", 0, Ret); ("copysign", 1, Ret); ("copysignl", 0, Ret); ("copysignl", 1, Ret); ("cos", 0, Ret);
    ("cosf", 0, Ret); ("cosh", 0, Ret); ("coshf", 0, Ret); ("coshl", 0, Ret); ("cosl", 0, Ret); ("cpow", 0, Ret); ("cpow", 1, Ret);
    ("cpowf", 0, Ret); ("cpowf", 1, Ret); ("cpowl", 0, Ret); ("cpowl", 1, Ret); ("cproj", 0, Ret); ("cproj", 0, Ret); ("cprojl", 0, Ret);
    ("creal", 0, Ret); ("crealf", 0, Ret); ("creall", 0, Ret); ("crypt", 0, Ret); ("crypt", 1, Ret); ("crypt_r", 0, Ret);
    ("crypt_r", 1, Ret); ("csin", 0, Ret); ("csinf", 0, Ret); ("csinh", 0, Ret); ("csinhf", 0, Ret); ("csinhl", 0, Ret); ("csinl", 0, Ret);
    ("csqrt", 0, Ret); ("csqrtf", 0, Ret); ("csqrtl", 0, Ret); ("ctan", 0, Ret); ("ctanf", 0, Ret); ("ctanh", 0, Ret); ("ctanhf", 0, Ret);
    ("ctanhl", 0, Ret); ("ctanl", 0, Ret); ("ctermid", 0, Ret); ("ctime", 0, Ret); ("ctime_r", 0, Param 1); ("cuserid", 0, Ret);
    ("dcgettext", 1, Ret); ("dcngettext", 1, Ret); ("dgettext", 1, Ret); ("difftime", 0, Ret); ("difftime", 1, Ret); ("dirname", 0, Ret);
    ("div", 0, Ret); ("div", 1, Ret); ("dngettext", 1, Ret); ("drem", 0, Ret); ("drem", 1, Ret); ("dremf", 0, Ret); ("dremf", 1, Ret);
    ("dreml", 0, Ret); ("dreml", 1, Ret); ("dup", 0, Ret); ("dup2", 0, Ret); ("envz_add", 2, Param 0); ("envz_add", 3, Param 0);
    ("envz_entry", 0, Ret); ("envz_get", 0, Ret); ("envz_merge", 2, Ret); ("erf", 0, Ret); ("erfc", 0, Ret); ("erfcf", 0, Ret);
    ("erfcf", 0, Ret); ("erff", 0, Ret); ("erfl", 0, Ret); ("exp", 0, Ret); ("exp10", 0, Ret); ("exp10f", 0, Ret); ("exp10l", 0, Ret);
    ("exp2", 0, Ret); ("exp2f", 0, Ret); ("exp2l", 0, Ret); ("expf", 0, Ret); ("expl", 0, Ret); ("expm1", 0, Ret); ("expm1f", 0, Ret);
    ("expm1l", 0, Ret); ("fabs", 0, Ret); ("fabsf", 0, Ret); ("fabsl", 0, Ret); ("fdim", 0, Ret); ("fdimf", 0, Ret); ("fdiml", 0, Ret);
    ("fgetc", 0, Ret); ("fgetpwent", 0, Ret); ("fgetpwent_r", 0, Param 1); ("fgets", 2, Param 0); ("fgets", 0, Ret); ("fgetwc", 0, Ret);
    ("fgetws", 2, Param 0); ("fgetws", 0, Ret); ("finite", 0, Ret); ("finitef", 0, Ret); ("finitel", 0, Ret); ("floor", 0, Ret);
    ("floorf", 0, Ret); ("floorl", 0, Ret); ("fma", 0, Ret); ("fma", 1, Ret); ("fma", 2, Ret); ("fmaf", 0, Ret); ("fmaf", 1, Ret);
    ("fmaf", 2, Ret); ("fmal", 0, Ret); ("fmal", 1, Ret); ("fmal", 2, Ret); ("fmax", 0, Ret); ("fmax", 1, Ret); ("fmaxf", 0, Ret);
    ("fmaxf", 1, Ret); ("fmaxl", 0, Ret); ("fmaxl", 1, Ret); ("fmaxmag", 0, Ret); ("fmaxmag", 1, Ret); ("fmaxmag", 0, Ret);
    ("fmaxmagf", 1, Ret); ("fmaxmagl", 0, Ret); ("fmaxmag", 1, Ret); ("fmin", 0, Ret); ("fmin", 1, Ret); ("fminf", 0, Ret);
    ("fminf", 1, Ret); ("fminl", 0, Ret); ("fminl", 1, Ret); ("fminmag", 0, Ret); ("fminmag", 1, Ret); ("fminmagf", 0, Ret);
    ("fminmagf", 1, Ret); ("fminmagl", 0, Ret); ("fminmagl", 1, Ret); ("fmod", 0, Ret); ("fmod", 1, Ret); ("fmodf", 0, Ret);
    ("fmodf", 1, Ret); ("fmodl", 0, Ret); ("fmodl", 1, Ret); ("fprintf", 1, Param 0); ("fprintf", 2, Param 0); ("fprintf", 3, Param 0);
    ("fputc", 0, Param 1); ("fputs", 0, Param 1); ("fputwc", 0, Param 1); ("fputws", 0, Param 1); ("fread", 3, Param 0);
    ("frexp", 0, Param 1); ("frexp", 0, Ret); ("frexpf", 0, Param 1); ("frexpf", 0, Ret); ("frexpl", 0, Param 1); ("frexpl", 0, Ret);
    ("fromfp", 0, Ret); ("fromfpf", 0, Ret); ("fromfpl", 0, Ret); ("fromfpx", 0, Ret); ("fromfpxf", 0, Ret); ("fromfpxl", 0, Ret);
    ("fscanf", 0, Param 2); ("fstat", 0, Param 1); ("fstat64", 0, Param 0); ("fwprintf", 1, Param 0); ("fwprintf", 2, Param 0);
    ("fwprintf", 3, Param 0); ("fwrite", 0, Param 3); ("fwscanf", 0, Param 2); ("gamma", 0, Ret); ("gammaf", 0, Ret); ("gammal", 0, Ret);
    ("gcvt", 0, Param 2); ("gcvt", 2, Ret); ("getauxval", 0, Ret); ("getc", 0, Ret); ("getc_unlocked", 0, Ret); ("getchar", 0, Ret);
    ("getchar_unlocked", 0, Ret); ("getcwd", 0, Ret); ("getdate", 0, Ret); ("getdate_r", 0, Param 1); ("getdelim", 3, Param 0);
    ("getline", 2, Param 0); ("getpayload", 0, Ret); ("getpayloadf", 0, Ret); ("getpayloadl", 0, Ret); ("getpeername", 0, Param 0);
    ("getrlimit", 1, Ret); ("gets", 0, Ret); ("gettext", 0, Ret); ("gettimeofday", 0, Param 1); ("getutent_r", 0, Param 1);
    ("getutid", 0, Ret); ("getutid", 0, Param 1); ("getutid", 1, Param 2); ("getutline", 0, Ret); ("getutline_r", 0, Param 1);
    ("getutline_r", 1, Param 2); ("getutmp", 0, Param 1); ("getutmp", 1, Param 0); ("getw", 0, Ret); ("getwc", 0, Ret);
    ("getwc_unlocked", 0, Ret); ("getwd", 0, Ret); ("gmtime", 0, Ret); ("gmtime_r", 0, Param 1); ("hasmntopt", 0, Param 0);
    ("htonl", 0, Ret); ("htons", 0, Ret); ("hypot", 0, Ret); ("hypot", 1, Ret); ("hypotf", 0, Ret); ("hypotf", 1, Ret); ("hypotl", 0, Ret);
    ("hypotl", 1, Ret); ("iconv", 1, Param 3); ("if_indextoname", 1, Ret); ("ilogb", 0, Ret); ("ilogbf", 0, Ret); ("ilogbl", 0, Ret);
    ("imaxabs", 0, Ret); ("imaxdiv", 0, Ret); ("imaxdiv", 1, Ret); ("index", 0, Ret); ("inet_lnaof", 0, Ret); ("inet_netof", 0, Ret);
    ("inet_network", 0, Ret); ("inet_ntoa", 0, Ret); ("inet_ntop", 1, Param 2); ("inet_ntop", 2, Ret); ("inet_pton", 1, Param 2);
    ("j0", 0, Ret); ("j0f", 0, Ret); ("j0l", 0, Ret); ("j1", 0, Ret); ("j1f", 0, Ret); ("j1l", 0, Ret); ("jn", 0, Ret); ("jn", 1, Ret);
    ("jnf", 0, Ret); ("jnf", 1, Ret); ("jnl", 0, Ret); ("jnl", 1, Ret); ("l64a", 0, Ret); ("labs", 0, Ret); ("llabs", 0, Ret);
    ("ldexp", 0, Ret); ("ldexp", 1, Ret); ("ldexp", 0, Ret); ("ldexp", 1, Ret); ("ldexpl", 0, Ret); ("ldexpl", 1, Ret); ("ldiv", 0, Ret);
    ("ldiv", 1, Ret); ("lfind", 1, Ret); ("lgmmaf_r", 0, Param 1); ("lgammal_r", 0, Ret); ("lgamma_r", 0, Param 1); ("lldiv", 0, Ret);
    ("lldiv", 1, Ret); ("llogb", 0, Ret); ("llogbf", 0, Ret); ("llogbl", 0, Ret); ("llrint", 0, Ret); ("llrintf", 0, Ret);
    ("llrinf", 0, Ret); ("llround", 0, Ret); ("llroundf", 0, Ret); ("llroundl", 0, Ret); ("localtime", 0, Ret); ("localtime_r", 0, Param 1);
    ("localtime_r", 1, Ret); ("log", 0, Ret); ("log10", 0, Ret); ("log10f", 0, Ret); ("log10l", 0, Ret); ("log1p", 0, Ret);
    ("log1pf", 0, Ret); ("log1pl", 0, Ret); ("log2", 0, Ret); ("log2f", 0, Ret); ("log2l", 0, Ret); ("logb", 0, Ret); ("logbf", 0, Ret);
    ("logbl", 0, Ret); ("logf", 0, Ret); ("logl", 0, Ret); ("lrint", 0, Ret); ("lrintf", 0, Ret); ("lrintl", 0, Ret); ("lround", 0, Ret);
    ("lroundf", 0, Ret); ("lroundl", 0, Ret); ("lsearch", 1, Ret); ("lsearch", 0, Param 0); ("lstat", 0, Param 1); ("lstat64", 0, Param 1);
    ("lutimes", 1, Param 0); ("mbrtowc", 1, Param 0); ("mbsnrtowcs", 1, Param 0); ("mbsrtowcs", 1, Param 0); ("mbstowcs", 1, Param 0);
    ("memccpy", 1, Param 0); ("memcpy", 1, Param 0); ("memfrob", 0, Ret); ("memmem", 0, Ret); ("memmove", 1, Param 0); ("memmove", 0, Ret);
    ("mempcpy", 1, Param 0); ("mempcpy", 1, Ret); ("memchr", 0, Ret); ("memrchr", 0, Ret); ("memset", 1, Param 0); ("memset", 0, Ret);
    ("mkdtemp", 0, Ret); ("mktemp", 0, Ret); ("mktime", 0, Ret); ("modf", 0, Param 1); ("modf", 0, Ret); ("modff", 0, Param 1);
    ("modff", 0, Ret); ("modfl", 0, Param 1); ("modfl", 0, Ret); ("mount", 0, Param 0); ("mremap", 0, Ret); ("mremap", 4, Ret);
    ("nan", 0, Ret); ("nanf", 0, Ret); ("nanl", 0, Ret); ("nearbyint", 0, Ret); ("nearbyintf", 0, Ret); ("nearbyintl", 0, Ret);
    ("nextafter", 0, Ret); ("nextafterl", 0, Ret); ("nextafterl", 0, Ret); ("nextdown", 0, Ret); ("nextdownf", 0, Ret);
    ("nextdownl", 0, Ret); ("nexttoward", 0, Ret); ("nexttowardf", 0, Ret); ("nexttowardl", 0, Ret); ("nextup", 0, Ret);
    ("nextupf", 0, Ret); ("nextupl", 0, Ret); ("ngettext", 0, Ret); ("nice", 0, Ret); ("nl_langinfo", 0, Ret); ("ntohl", 0, Ret);
    ("ntohs", 0, Ret); ("pow", 0, Ret); ("pow", 1, Ret); ("pow10", 0, Ret); ("powf", 0, Ret); ("pow10l", 0, Ret); ("powf", 0, Ret);
    ("powf", 1, Ret); ("powl", 0, Ret); ("powl", 1, Ret); ("pread", 0, Param 0); ("pread64", 0, Param 0); ("ptsname_r", 0, Param 1);
    ("putc", 0, Param 1); ("putc_unlocked", 0, Param 1); ("putpwent", 0, Param 1); ("pututline", 0, Ret); ("putw", 0, Ret);
    ("putwc", 0, Param 1); ("putwc_unlocked", 0, Param 1); ("pwrite", 1, Param 0); ("pwrite64", 1, Param 0); ("qecvt", 0, Ret);
    ("qecvt", 0, Param 3); ("qecvt", 0, Param 2); ("qecvt_r", 0, Param 4); ("qecvt_r", 0, Param 3); ("qecvt_r", 0, Param 2);
    ("qfcvt", 0, Ret); ("qfcvt", 0, Param 3); ("qfcvt", 0, Param 2); ("qfcvt_r", 0, Param 4); ("qfcvt_r", 0, Param 3);
    ("qfcvt_r", 0, Param 2); ("qgcvt", 0, Param 2); ("qgcvt", 2, Ret); ("rawmemchr", 0, Ret); ("read", 0, Param 1); ("readdir", 0, Ret);
    ("readdrir_r", 0, Param 1); ("readdir_r", 1, Param 2); ("readlink", 0, Param 1); ("readv", 0, Param 1); ("realloc", 0, Ret);
    ("realpath", 0, Param 0); ("realpath", 1, Ret); ("regcomp", 1, Param 0); ("regerror", 0, Param 2); ("regerror", 1, Param 0);
    ("remainder", 0, Ret); ("remainder", 1, Ret); ("remainderf", 0, Ret); ("remainderf", 1, Ret); ("remainderl", 0, Ret);
    ("remainderl", 1, Ret); ("rindex", 0, Ret); ("rint", 0, Ret); ("rintf", 0, Ret); ("rintl", 0, Ret); ("round", 0, Ret);
    ("roundeven", 0, Ret); ("roundevenf", 0, Ret); ("roundevenl", 0, Ret); ("roundf", 0, Ret); ("roundl", 0, Ret); ("rpmatch", 0, Ret);
    ("scalb", 0, Ret); ("scalb", 1, Ret); ("scalbf", 0, Ret); ("scalbf", 1, Ret); ("scalbl", 0, Ret); ("scalbf", 1, Ret);
    ("scalbln", 0, Ret); ("scalbln", 1, Ret); ("scalblnf", 0, Ret); ("scalblnf", 0, Ret); ("scalblnl", 0, Ret); ("scalblnl", 1, Ret);
    ("scalbn", 0, Ret); ("scalbn", 1, Ret); ("scalbnf", 0, Ret); ("scalbnf", 1, Ret); ("scalbnl", 0, Ret); ("scalbnl", 1, Ret);
    ("scandir", 0, Param 0); ("secure_getenv", 0, Ret); ("sem_getvalue", 0, Param 0); ("sem_init", 2, Param 0); ("setitimer", 0, Param 2);
    ("setitimer", 1, Param 0); ("setlocale", 1, Ret); ("setpayload", 1, Param 0); ("setpayloadf", 1, Param 0); ("setpayloadl", 1, Param 0);
    ("setpayloadsig", 1, Param 0); ("setpayloadsigf", 1, Param 0); ("setpayloadsigl", 1, Param 0); ("setstate_r", 0, Param 1);
    ("sigaddset", 1, Param 0); ("signbit", 0, Ret); ("significand", 0, Ret); ("significandf", 0, Ret); ("significandl", 0, Ret);
    ("sin", 0, Ret); ("sincos", 0, Param 1); ("sincos", 0, Param 2); ("sincosf", 0, Param 1); ("sincosf", 0, Param 2);
    ("sincosl", 0, Param 1); ("sincosl", 0, Param 2); ("sinf", 0, Ret); ("sinl", 0, Ret); ("sinh", 0, Ret); ("sinhf", 0, Ret);
    ("sinhl", 0, Ret); ("snprintf", 1, Param 1); ("snprintf", 1, Param 2); ("snprintf", 1, Param 3); ("sqrt", 0, Ret); ("sqrtf", 0, Ret);
    ("sqrtl", 0, Ret); ("sscanf", 0, Param 2); ("sscanf", 1, Param 2); ("stat", 0, Param 1); ("stpcpy", 1, Param 0); ("stpcpy", 0, Ret);
    ("stpncpy", 1, Param 0); ("stpncpy", 0, Ret); ("strcat", 1, Param 0); ("strcat", 0, Ret); ("strchrnul", 0, Ret); ("strcpy", 1, Param 0);
    ("strcpy", 0, Ret); ("strdup", 0, Ret); ("strdupa", 0, Ret); ("strerror", 0, Ret); ("strerror_r", 0, Param 1); ("strerror_r", 1, Ret);
    ("strfromd", 2, Param 0); ("strfromd", 3, Param 0); ("strfromf", 2, Param 0); ("strfromf", 3, Param 0); ("strfroml", 2, Param 0);
    ("strfroml", 3, Param 0); ("strfry", 0, Ret); ("strftime", 3, Param 0); ("strncat", 1, Param 0); ("strncat", 0, Ret);
    ("strncpy", 1, Param 0); ("strncpy", 0, Ret); ("strndup", 0, Ret); ("strndupa", 0, Ret); ("strpbrk", 0, Ret); ("strptime", 0, Param 2);
    ("strptime", 0, Ret); ("strrchr", 0, Ret); ("strsep", 0, Ret); ("strsignal", 0, Ret); ("strstr", 0, Ret); ("strtod", 0, Param 1);
    ("strtod", 0, Ret); ("strtof", 0, Param 1); ("strtof", 0, Ret); ("strtoimax", 0, Param 1); ("strtoimax", 0, Ret); ("strtok", 0, Ret);
    ("strtok_r", 0, Ret); ("strtol", 0, Param 1); ("strtol", 0, Ret); ("strtold", 0, Param 1); ("strtold", 0, Ret); ("strtoll", 0, Param 1);
    ("strtoll", 0, Ret); ("strtoul", 0, Param 1); ("strtoul", 0, Ret); ("strtoull", 0, Param 1); ("strtoull", 0, Ret);
    ("strtoumax", 0, Param 1); ("strtoumax", 0, Ret); ("strxfrm", 1, Param 0); ("swapcontext", 0, Param 0); ("swprintf", 1, Param 0);
    ("swprintf", 2, Param 0); ("swprintf", 3, Param 0); ("swscanf", 0, Param 2); ("swscanf", 1, Param 2); ("symlink", 0, Param 1);
    ("tan", 0, Ret); ("tanf", 0, Ret); ("tanh", 0, Ret); ("tanhf", 0, Ret); ("tanhl", 0, Ret); ("tanl", 0, Ret); ("tcgetattr", 0, Param 1);
    ("telldir", 0, Ret); ("tempnam", 0, Ret); ("tempnam", 1, Ret); ("tfind", 1, Ret); ("tgamma", 0, Ret); ("tgammaf", 0, Ret);
    ("tgammal", 0, Ret); ("timegm", 0, Ret); ("timelocal", 0, Ret); ("tmpnam", 0, Ret); ("tmpnam_r", 0, Ret); ("toascii", 0, Ret);
    ("tolower", 0, Ret); ("toupper", 0, Ret); ("towctrans", 0, Ret); ("towlower", 0, Ret); ("towupper", 0, Ret); ("trunc", 0, Ret);
    ("truncf", 0, Ret); ("truncl", 0, Ret); ("truncate", 0, Param 0); ("tsearch", 1, Ret); ("tsearch", 0, Param 1); ("ufromfp", 0, Ret);
    ("ufromfpf", 0, Ret); ("ufromfpl", 0, Ret); ("ufromfpx", 0, Ret); ("ufromfpxf", 0, Ret); ("ufromfpxl", 0, Ret); ("ungetc", 0, Param 1);
    ("ungetwc", 0, Param 1); ("updwtmp", 1, Param 0); ("utime", 1, Param 0); ("utimes", 1, Param 0); ("vasprintf", 1, Param 0);
    ("vasprintf", 2, Param 0); ("va_copy", 1, Param 0); ("vfprintf", 1, Param 0); ("vfprintf", 2, Param 0); ("vfscanf", 0, Param 2);
    ("vfwprintf", 1, Param 0); ("vfwprintf", 2, Param 0); ("vfwscanf", 0, Param 2); ("vfwscanf", 1, Param 2); ("vsnprintf", 3, Param 0);
    ("vsnprintf", 2, Param 0); ("vsprintf", 2, Param 0); ("vsprintf", 1, Param 0); ("vsscanf", 0, Param 2); ("vsscanf", 1, Param 2);
    ("vswprintf", 2, Param 0); ("vswprintf", 1, Param 0); ("vswscanf", 0, Param 2); ("vswscanf", 1, Param 2); ("wcpcpy", 1, Param 0);
    ("wcpcpy", 0, Ret); ("wcpncpy", 1, Param 0); ("wcpncpy", 0, Ret); ("wcrtomb", 1, Param 0); ("wcscat", 1, Param 0); ("wcscat", 0, Ret);
    ("wcschr", 0, Ret); ("wcscpy", 1, Param 0); ("wcscpy", 0, Ret); ("wcsdup", 0, Ret); ("wcsncat", 1, Param 0); ("wcsncat", 0, Ret);
    ("wcsncpy", 1, Param 0); ("wcsncpy", 0, Ret); ("wcsnrtombs", 1, Param 0); ("wcspbrk", 0, Ret); ("wcsrchr", 0, Ret);
    ("wcsrtombs", 1, Param 0); ("wcsstr", 0, Ret); ("wcstod", 0, Param 1); ("wcstod", 0, Ret); ("wcstof", 0, Param 1); ("wcstof", 0, Ret);
    ("wcstoimax", 0, Param 0); ("wcstoimax", 0, Ret); ("wcstok", 0, Ret); ("wcstok", 2, Ret); ("wcstol", 0, Param 1); ("wcstol", 0, Ret);
    ("wcstold", 0, Param 1); ("wcstold", 0, Ret); ("wcstoll", 0, Param 1); ("wcstoll", 0, Ret); ("wcstombs", 1, Param 0);
    ("wcstoul", 0, Param 1); ("wcstoul", 0, Ret); ("wcstoull", 0, Param 1); ("wcstoull", 0, Ret); ("wcstoumax", 0, Param 1);
    ("wcstoumax", 0, Ret); ("wcsxfrm", 1, Param 0); ("wctob", 0, Ret); ("wctomb", 1, Param 0); ("wctrans", 0, Ret); ("wctype", 0, Ret);
    ("wmemchr", 0, Ret); ("wmemcpy", 1, Param 0); ("wmemcpy", 0, Ret); ("wmemmove", 1, Param 0); ("wmemmove", 0, Ret);
    ("wmempcpy", 1, Param 0); ("wmempcpy", 0, Ret); ("wmemset", 1, Param 0); ("wmemset", 0, Ret); ("wordexp", 0, Param 1); ("y0", 0, Ret);
    ("y0f", 0, Ret); ("y0l", 0, Ret); ("y1", 0, Ret); ("y1f", 0, Ret); ("y1l", 0, Ret); ("yn", 0, Ret); ("yn", 1, Ret); ("ynf", 0, Ret);
    ("ynf", 1, Ret); ("ynl", 0, Ret); ("ynl", 1, Ret)
].
Definition libcSummary : table string := fold_left (fun T c => addElement (fst (fst c)) (snd (fst c)) (snd c) T) libcCalls [].
