(** Model of the units table, lib/src/parse/parse_common.cpp 1072-1280 parseStrToUnits.
    A unit is the name of its enumerator in lib/include/commsdsl/parse/ParseUnits.h 25-88. *)
From Verif.Model Require Import Base Common.

(** parse_common.cpp 1074-1249, in source order *)
Definition units_table : list (str * str) := [
  (L "", L "Unknown");
  (L "ns", L "Nanoseconds");
  (L "nanosec", L "Nanoseconds");
  (L "nanosecs", L "Nanoseconds");
  (L "nanosecond", L "Nanoseconds");
  (L "nanoseconds", L "Nanoseconds");
  (L "us", L "Microseconds");
  (L "microsec", L "Microseconds");
  (L "microsecs", L "Microseconds");
  (L "microsecond", L "Microseconds");
  (L "microseconds", L "Microseconds");
  (L "ms", L "Milliseconds");
  (L "millisec", L "Milliseconds");
  (L "millisecs", L "Milliseconds");
  (L "millisecond", L "Milliseconds");
  (L "milliseconds", L "Milliseconds");
  (L "s", L "Seconds");
  (L "sec", L "Seconds");
  (L "secs", L "Seconds");
  (L "second", L "Seconds");
  (L "seconds", L "Seconds");
  (L "min", L "Minutes");
  (L "mins", L "Minutes");
  (L "minute", L "Minutes");
  (L "minutes", L "Minutes");
  (L "h", L "Hours");
  (L "hour", L "Hours");
  (L "hours", L "Hours");
  (L "d", L "Days");
  (L "day", L "Days");
  (L "days", L "Days");
  (L "w", L "Weeks");
  (L "week", L "Weeks");
  (L "weeks", L "Weeks");
  (L "nm", L "Nanometers");
  (L "nanometer", L "Nanometers");
  (L "nanometre", L "Nanometers");
  (L "nanometres", L "Nanometers");
  (L "nanometers", L "Nanometers");
  (L "um", L "Micrometers");
  (L "micrometer", L "Micrometers");
  (L "micrometre", L "Micrometers");
  (L "micrometres", L "Micrometers");
  (L "micrometers", L "Micrometers");
  (L "mm", L "Millimeters");
  (L "millimeter", L "Millimeters");
  (L "millimetre", L "Millimeters");
  (L "millimetres", L "Millimeters");
  (L "millimeters", L "Millimeters");
  (L "cm", L "Centimeters");
  (L "centimeter", L "Centimeters");
  (L "centimetre", L "Centimeters");
  (L "centimetres", L "Centimeters");
  (L "centimeters", L "Centimeters");
  (L "m", L "Meters");
  (L "meter", L "Meters");
  (L "metre", L "Meters");
  (L "metres", L "Meters");
  (L "meters", L "Meters");
  (L "km", L "Kilometers");
  (L "kilometer", L "Kilometers");
  (L "kilometre", L "Kilometers");
  (L "kilometres", L "Kilometers");
  (L "kilometers", L "Kilometers");
  (L "nm/s", L "NanometersPerSecond");
  (L "nmps", L "NanometersPerSecond");
  (L "nanometer/second", L "NanometersPerSecond");
  (L "nanometre/second", L "NanometersPerSecond");
  (L "nanometers/second", L "NanometersPerSecond");
  (L "nanometres/second", L "NanometersPerSecond");
  (L "um/s", L "MicrometersPerSecond");
  (L "umps", L "MicrometersPerSecond");
  (L "micrometers/second", L "MicrometersPerSecond");
  (L "micrometres/second", L "MicrometersPerSecond");
  (L "micrometer/second", L "MicrometersPerSecond");
  (L "micrometre/second", L "MicrometersPerSecond");
  (L "mm/s", L "MillimetersPerSecond");
  (L "mmps", L "MillimetersPerSecond");
  (L "millimeter/second", L "MillimetersPerSecond");
  (L "millimetre/second", L "MillimetersPerSecond");
  (L "millimeters/second", L "MillimetersPerSecond");
  (L "millimetres/second", L "MillimetersPerSecond");
  (L "cm/s", L "CentimetersPerSecond");
  (L "cmps", L "CentimetersPerSecond");
  (L "centimeter/second", L "CentimetersPerSecond");
  (L "centimetre/second", L "CentimetersPerSecond");
  (L "centimeters/second", L "CentimetersPerSecond");
  (L "centimetres/second", L "CentimetersPerSecond");
  (L "m/s", L "MetersPerSecond");
  (L "mps", L "MetersPerSecond");
  (L "meter/second", L "MetersPerSecond");
  (L "metre/second", L "MetersPerSecond");
  (L "meters/second", L "MetersPerSecond");
  (L "metres/second", L "MetersPerSecond");
  (L "km/s", L "KilometersPerSecond");
  (L "kmps", L "KilometersPerSecond");
  (L "kps", L "KilometersPerSecond");
  (L "kilometer/second", L "KilometersPerSecond");
  (L "kilometre/second", L "KilometersPerSecond");
  (L "kilometers/second", L "KilometersPerSecond");
  (L "kilometres/second", L "KilometersPerSecond");
  (L "km/h", L "KilometersPerHour");
  (L "kmph", L "KilometersPerHour");
  (L "kph", L "KilometersPerHour");
  (L "kilometer/hour", L "KilometersPerHour");
  (L "kilometre/hour", L "KilometersPerHour");
  (L "kilometers/hour", L "KilometersPerHour");
  (L "kilometres/hour", L "KilometersPerHour");
  (L "hz", L "Hertz");
  (L "hertz", L "Hertz");
  (L "khz", L "KiloHertz");
  (L "kilohertz", L "KiloHertz");
  (L "mhz", L "MegaHertz");
  (L "megahertz", L "MegaHertz");
  (L "ghz", L "GigaHertz");
  (L "gigahertz", L "GigaHertz");
  (L "deg", L "Degrees");
  (L "degree", L "Degrees");
  (L "degrees", L "Degrees");
  (L "rad", L "Radians");
  (L "radian", L "Radians");
  (L "radians", L "Radians");
  (L "na", L "Nanoamps");
  (L "nanoamp", L "Nanoamps");
  (L "nanoamps", L "Nanoamps");
  (L "nanoampere", L "Nanoamps");
  (L "nanoamperes", L "Nanoamps");
  (L "ua", L "Microamps");
  (L "microamp", L "Microamps");
  (L "microamps", L "Microamps");
  (L "microampere", L "Microamps");
  (L "microamperes", L "Microamps");
  (L "ma", L "Milliamps");
  (L "milliamp", L "Milliamps");
  (L "milliamps", L "Milliamps");
  (L "milliampere", L "Milliamps");
  (L "milliamperes", L "Milliamps");
  (L "a", L "Amps");
  (L "amp", L "Amps");
  (L "amps", L "Amps");
  (L "ampere", L "Amps");
  (L "amperes", L "Amps");
  (L "ka", L "Kiloamps");
  (L "kiloamp", L "Kiloamps");
  (L "kiloamps", L "Kiloamps");
  (L "kiloampere", L "Kiloamps");
  (L "kiloamperes", L "Kiloamps");
  (L "nv", L "Nanovolts");
  (L "nanovolt", L "Nanovolts");
  (L "nanovolts", L "Nanovolts");
  (L "uv", L "Microvolts");
  (L "microvolt", L "Microvolts");
  (L "microvolts", L "Microvolts");
  (L "mv", L "Millivolts");
  (L "millivolt", L "Millivolts");
  (L "millivolts", L "Millivolts");
  (L "v", L "Volts");
  (L "volt", L "Volts");
  (L "volts", L "Volts");
  (L "kv", L "Kilovolts");
  (L "kilovolt", L "Kilovolts");
  (L "kilovolts", L "Kilovolts");
  (L "b", L "Bytes");
  (L "byte", L "Bytes");
  (L "bytes", L "Bytes");
  (L "kb", L "Kilobytes");
  (L "kilobyte", L "Kilobytes");
  (L "kilobytes", L "Kilobytes");
  (L "mb", L "Megabytes");
  (L "megabyte", L "Megabytes");
  (L "megabytes", L "Megabytes");
  (L "gb", L "Gigabytes");
  (L "gigabyte", L "Gigabytes");
  (L "gigabytes", L "Gigabytes");
  (L "tb", L "Terabytes");
  (L "terabyte", L "Terabytes");
  (L "terabytes", L "Terabytes")
]%string.

Fixpoint assoc {A} (k : str) (l : list (str * A)) : option A :=
  match l with
  | [] => None
  | (k0, v) :: l' => if str_eqb k0 k then Some v else assoc k l'
  end.

(** parse_common.cpp 1250-1280 *)
Definition parseStrToUnits (s : str) : option str := assoc (units_key s) units_table.
