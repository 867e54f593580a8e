(** Model of CPPQEDcore/high/QM_Picture.cc, CPPQEDcore/quantumtrajectory/EvolutionMethod.cc, the enumeration of CPPQEDelements/utils/ModeFunction.cc, and of
    applicableInMaster of the elements: Mode_.h:113, Spin.h:131, Particle_.h:111, Structure.h:132, with the check in the constructor of Master, Master.h:73. *)
From Coq Require Import String Ascii List Arith Bool Reals.
From Verif Require Import Star CReal TriModel StateFileModel ParsModel ElementModel ModeModel FreeExactModel.
Import ListNotations.
Local Open Scope nat_scope.

(** evolution::Method, EvolutionMethod.h:12-16; ModeFunctionType, ModeFunction.h:9 *)
Inductive method := SINGLE | ENSEMBLE | MASTER.
Inductive modeFunType := MFT_SIN | MFT_COS | MFT_PLUS | MFT_MINUS.

(** operator<<, QM_Picture.cc:14-22, EvolutionMethod.cc:7-16, ModeFunction.cc:9-18 *)
Definition writePicture (q : picture) : text := match q with IP => str "IP" | UIP => str "UIP" | SCH => str "Sch" end.
Definition writeMethod (m : method) : text := match m with SINGLE => str "single" | ENSEMBLE => str "ensemble" | MASTER => str "master" end.
Definition writeModeFun (f : modeFunType) : text := match f with MFT_SIN => str "Sin" | MFT_COS => str "Cos" | MFT_PLUS => str "Plus" | MFT_MINUS => str "Minus" end.

(** operator>>: a word is extracted (an empty one if there is none). What becomes of the variable read into, and the rest of the stream if the latter has not failed *)
(** QM_Picture.cc:25-38 *)
Definition readPicture (l : text) (v : picture) : picture * option text :=
  let s := match extractWord l with Some (w, _) => w | None => [] end in
  let rest := match extractWord l with Some (_, r) => Some r | None => None end in
  let '(temp, ok) :=
    if textEq s (str "IP") then (IP, rest) else if textEq s (str "UIP") then (UIP, rest)
    else if negb (textEq s (str "Sch")) then (SCH, None) else (SCH, rest) in
  (match ok with Some _ => temp | None => v end, ok).
(** EvolutionMethod.cc:19-34 *)
Definition readMethod (l : text) (v : method) : method * option text :=
  let s := match extractWord l with Some (w, _) => w | None => [] end in
  let rest := match extractWord l with Some (_, r) => Some r | None => None end in
  let '(temp, ok) :=
    if textEq s (str "single") then (SINGLE, rest) else if textEq s (str "ensemble") then (ENSEMBLE, rest)
    else if negb (textEq s (str "master")) then (MASTER, None) else (MASTER, rest) in
  (match ok with Some _ => temp | None => v end, ok).
(** ModeFunction.cc:20-34 *)
Definition readModeFun (l : text) (v : modeFunType) : modeFunType * option text :=
  let s := match extractWord l with Some (w, _) => w | None => [] end in
  let rest := match extractWord l with Some (_, r) => Some r | None => None end in
  let '(temp, ok) :=
    if textEq s (str "Sin") then (MFT_SIN, rest) else if textEq s (str "Cos") then (MFT_COS, rest) else if textEq s (str "Plus") then (MFT_PLUS, rest)
    else if negb (textEq s (str "Minus")) then (MFT_MINUS, None) else (MFT_MINUS, rest) in
  (match ok with Some _ => temp | None => v end, ok).

Section Update.
Context {A : Type}.
(** the values of parameters, with their types *)
Inductive value := VPic (q : picture) | VMeth (m : method) | VOther (a : A).
(** Typed<T>::read_v, Pars.h:87, for the two types *)
Definition picExtract (l : text) : option (value * text) := match readPicture l IP with (q, Some r) => Some (VPic q, r) | _ => None end.
Definition methExtract (l : text) : option (value * text) := match readMethod l SINGLE with (m, Some r) => Some (VMeth m, r) | _ => None end.

Inductive chosen := Chosen (t : @table value) (q : picture) | Ended (* abort or exit in update *) | Recreated | BadCast | Impossible.
(** updateWithPicture, QM_Picture.cc:41-50. The dynamic_cast fails if the parameter has another type *)
Definition updateWithPicture (prefix : text) (t : @table value) (words : list text) : chosen :=
  let (t1, refused) := add t (str "picture") picExtract (VPic IP) in
  if refused then Recreated
  else match update prefix t1 words with
       | Updated t2 =>
           match plainVal t2 (str "picture") with
           | VPic qmp =>
               match find (decl t2) (str "evol") with
               | None => Chosen t2 qmp
               | Some (Plain _) =>
                   match plainVal t2 (str "evol") with
                   | VMeth m => match m, qmp with MASTER, IP => Chosen (setPlain t2 (str "picture") (VPic UIP)) UIP | _, _ => Chosen t2 qmp end
                   | _ => BadCast
                   end
               | Some _ => BadCast
               end
           | _ => Impossible
           end
       | Aborted | Exited => Ended
       | Stuck => Impossible
       end.
End Update.
Arguments value : clear implicits.
Arguments chosen : clear implicits.

(** applicableInMaster_v: !bool(real(zI_)), !getGamma(), true *)
Definition elementApplicable (e : element) : bool :=
  match e with EMode zI => Reqb (cre zI) 0 | ESpin gamma _ => Reqb gamma 0 | EParticle _ _ => true end.
(** a system without exact part is applicable, Structure.h:132; otherwise SystemNotApplicable is thrown, Master.h:73 *)
Definition sysApplicable (sys : modeSys) : bool := match msExact sys with Some zI => elementApplicable (EMode zI) | None => true end.
