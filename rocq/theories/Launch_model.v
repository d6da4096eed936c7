(** Model of a run from the command line: the arguments (Args_model), the configuration files
    (Config_model) and the run (Main_model) together.
    Source: /repo/src/pfaedle/PfaedleMain.cpp:100-127 (reading, calls of getCfgPaths and parse),
    173-176, 194, 218, 234 (which options select what), 294-335 (methods), 385-454.

    Simplifications, beyond those of the three models.
    - Names of files and trips are numbered ([no]).
    - configparser is not in the checkout: [sections] gives, for the configuration files and the
      text of -P, the sections in the order in which they are read, or a parse exception.
    - [None]: undefined behaviour while the configuration is read (Config_model.Bad). *)
From Coq Require Import Ascii String List Arith ZArith QArith Bool.
From Verif Require Args_model Config_model.
From Verif Require Import Main_model.
Import ListNotations.
Open Scope nat_scope.
Open Scope list_scope.

(** 296-311, 315-332: the methods that are known *)
Definition knownSimi (s : string) : bool := existsb (String.eqb s) ["bts"; "jaccard"; "jaccard-geodist"; "ed"; "ped"]%string.
Definition knownTrans (s : string) : bool := existsb (String.eqb s) ["exp"; "distdiff"; "timenorm"]%string.
(** MotConfig.h:16-25 *)
Definition motCfg (c : Config_model.config * list nat) : mcfg :=
  mkCfg (snd c) (knownSimi (Config_model.rSimiMethod (Config_model.cRout (fst c)))) (knownTrans (Config_model.rTransMethod (Config_model.cRout (fst c)))).
Definition given (s : string) : bool := negb (String.eqb s "").

Section Launch.
Variable atof : string -> Q.
Variable mPerDeg : Q.
Variable split : string -> ascii -> list string.
Variable trim : string -> string.
Variable typesOf : string -> list nat.
(** Raw values of the configuration files *)
Variable V : Type.
Variable asStr : V -> string.
Variable asArr : V -> ascii -> list string.
Variable asBool : V -> option bool.
Variable asInt : V -> option Z.
Variable asDouble asPos : V -> option Q.
Variable asDoubles : V -> ascii -> option (list Q).
Variable sections : list string -> string -> option (list (string * (string -> option V))).
Variable good : string -> bool.
Variables installed home : string.
Variable cwd : option string.
(** The files *)
Variable no : string -> nat.
Variable feed : nat -> option (list trip).
Variable osmOk : nat -> bool.
Variable filterOk : bool.
Variable writeOk : nat -> bool.

(** PfaedleConfig.h:46-76 as read by main *)
Definition optsOf (c : Args_model.cfg) : opts :=
  mkOpts (given (Args_model.kOsm c)) (given (Args_model.kOsmOut c)) (Args_model.kOverpass c) (Args_model.kOsmfilter c)
    (map no (Args_model.kFeeds c)) (no (Args_model.kOut c)) (Args_model.kInPlace c)
    (if given (Args_model.kTrip c) then Some (no (Args_model.kTrip c)) else None) (Args_model.kMots c)
    (Args_model.kDrop c) (Args_model.kGraph c) (Args_model.kTrGraph c) (Args_model.kStats c).
Inductive ending := Stopped (o : Args_model.output) | Ran (ev : list event).
(** 100-455 *)
Definition launch (args : list string) : option (ending * nat) :=
  match Args_model.read atof mPerDeg split trim typesOf args with
  | Args_model.Exit o n => Some (Stopped o, n)
  | Args_model.Config c =>
      let run cfgs := let '(ev, n) := main (mkWorld cfgs feed osmOk filterOk writeOk) (optsOf c) in Some (Ran ev, n) in
      match sections (Args_model.cfgPaths good installed home cwd (Args_model.kConfigs c)) (Args_model.kParam c) with
      | None => run None
      | Some secs =>
          match Config_model.parse split trim V asStr asArr asBool asInt asDouble asPos asDoubles typesOf [] secs with
          | Config_model.Ok out => run (Some (map motCfg out))
          | Config_model.Exc => run None
          | Config_model.Bad => None
          end
      end
  end.
End Launch.
