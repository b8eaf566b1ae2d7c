.lia.cache
.nra.cache
.nia.cache
.csdp.cache
