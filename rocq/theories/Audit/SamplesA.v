(** Axioms used by the property theorems of Properties/Samples.v (generated by tools/gen.py) *)
From Verif Require Import Properties.Samples.

Definition audited :=
  (@C01_u8_round_trip,
   @C01_u8_bytes,
   @C01_u8_value,
   @C02_i16_round_trip,
   @C02_i16_bytes_round_trip,
   @C02_i16_bytes_meaning,
   @C03_i24_round_trip,
   @C04_i24_bytes_written,
   @C04_i24_bytes_read_iff,
   @C04_i24_bytes_negative,
   @C04_i24_bytes_round_trip_refuted,
   @C05_i16_accuracy,
   @C05_u8_accuracy,
   @C05_i24_accuracy,
   @C06_encoders_monotone,
   @C06_encoders_in_type_range,
   @C06_saturation,
   @C06_nan,
   @C07_i24_in_range,
   @C07_i24_saturation_refuted,
   @C07_i24_wraps,
   @C07_i24_range_iff,
   @C07_i24_bytes_modulo).
Print Assumptions audited.
