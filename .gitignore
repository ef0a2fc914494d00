
.lia.cache
.nia.cache
.nra.cache
.csdp.cache
